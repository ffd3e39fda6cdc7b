(** End to end: compilation (code generation followed by lowering) is sound and complete with respect to the meaning
    of programs. *)
From Coq Require Import ZArith NArith List Bool Lia.
From Verif Require Import PField SMap IR IRSpec Wf IRProofs Interp InterpProofs Optimizer OptimizerProofs OptPipeline OptExtra PropIRLemmas
  Bits Flat FlatProofs Zir Codegen CgBase CgGadgets CgExpr CgStmt CgEmit CgProg CgWf.
Import ListNotations.
Open Scope Z_scope.

Section CgEnd.
Context {PF : PrimeField}.

(** ** Introducing additional variables beforehand changes nothing *)
Lemma mem_iff : forall v a b, (In v a <-> In v b) -> mem v a = mem v b.
Proof.
  intros v a b H. destruct (mem v a) eqn:E; symmetry.
  - apply mem_In. apply H. apply mem_In. auto.
  - destruct (mem v b) eqn:E2; auto. apply mem_In in E2. apply H in E2. apply mem_In in E2. congruence.
Qed.
Lemma frame1 : forall s D D1 X E, fintro D s = Some D1 -> (forall v, In v E <-> In v X \/ In v D) -> (forall v, In v X -> ~ In v D1 \/ In v D) ->
  exists E1, fintro E s = Some E1 /\ (forall v, In v E1 <-> In v X \/ In v D1).
Proof.
  intros s D D1 X E H HE HX.
  assert (HDE : incl D E) by (intros v Hv; apply HE; auto).
  assert (Hsub : forall l, subset l D = true -> subset l E = true) by (intros l Hl; apply subset_incl; apply subset_incl in Hl; eapply incl_tran; eauto).
  destruct s as [v e err|l q err|outs sv ins|fmt es|u]; cbn [fintro] in *.
  - destruct (subset (fvars e) D) eqn:E1; [|discriminate]. destruct (mem v D) eqn:E2; [discriminate|]. injection H as <-.
    rewrite (Hsub _ E1). assert (E3 : mem v E = false).
    { destruct (mem v E) eqn:E3; auto. apply mem_In in E3. apply HE in E3 as [E3|E3]; [|apply mem_In in E3; congruence].
      destruct (HX v E3) as [Hn|Hn]; [exfalso; apply Hn; left; auto|apply mem_In in Hn; congruence]. }
    rewrite E3. cbn. eexists; split; [reflexivity|]. intros u. cbn. rewrite HE. tauto.
  - destruct (subset (fvars l ++ fvars q) D) eqn:E1; [|discriminate]. injection H as <-. rewrite (Hsub _ E1). eauto.
  - match type of H with (if ?c then _ else _) = _ => destruct c eqn:Ec end; [|discriminate]. injection H as <-.
    apply andb_prop in Ec as [Ec E5]. apply andb_prop in Ec as [Ec E4]. apply andb_prop in Ec as [Ec E3]. apply andb_prop in Ec as [E1 E2].
    assert (E3' : forallb (fun o => negb (mem o E) && negb (is_output o)) outs = true).
    { rewrite forallb_forall in E3 |- *. intros o Ho. specialize (E3 o Ho). apply andb_prop in E3 as [A B]. rewrite B, andb_true_r.
      apply negb_true_iff in A. apply negb_true_iff. destruct (mem o E) eqn:E6; auto. apply mem_In in E6. apply HE in E6 as [E6|E6]; [|apply mem_In in E6; congruence].
      destruct (HX o E6) as [Hn|Hn]; [exfalso; apply Hn, in_or_app; auto|apply mem_In in Hn; congruence]. }
    rewrite (Hsub _ E1), E2, E3', E4, E5. cbn. eexists; split; [reflexivity|]. intros u. rewrite !in_app_iff, HE. tauto.
  - destruct (subset (flat_map fvars es) D) eqn:E1; [|discriminate]. injection H as <-. rewrite (Hsub _ E1). eauto.
  - injection H as <-. eauto.
Qed.
Lemma frame : forall em D D1 X E, fintro_all D em = Some D1 -> (forall v, In v E <-> In v X \/ In v D) -> (forall v, In v X -> ~ In v D1 \/ In v D) ->
  exists E1, fintro_all E em = Some E1 /\ (forall v, In v E1 <-> In v X \/ In v D1).
Proof.
  induction em as [|s r IH]; intros D D1 X E H HE HX; cbn [fintro_all] in *; [injection H as <-; eauto|].
  destruct (fintro D s) as [D2|] eqn:E2; [|discriminate]. pose proof (fintro_all_incl _ _ _ H) as Hi. pose proof (fintro_incl _ _ _ E2) as Hi0.
  destruct (frame1 s D D2 X E E2 HE) as [E3 [F3 H3]]; [intros v Hv; destruct (HX v Hv); auto|].
  rewrite F3. apply (IH D2 D1 X E3 H H3). intros v Hv. destruct (HX v Hv); auto.
Qed.
Lemma WInv_set : forall D E P s, (forall v, In v E <-> In v D) -> WInv D P s -> WInv E P s.
Proof.
  intros D E P s H []. split; auto.
  - intros v [Hv|Hv]; [apply H in Hv|]; auto.
  - intros v Hv Hd. apply H in Hd. apply (wi_disj v); auto.
  - intros x v Hx. apply H. eauto.
  - intros k b e Hk v Hv. apply H. eapply wi_cache; eauto.
Qed.

(** ** Parameters *)
Lemma wf_param : forall p s D prm s' em, WInv D [] s -> use_param p s = Some (prm, s', em) ->
  pid prm = vnew (nxt s) /\ exists D', fintro_all (vnew (nxt s) :: D) em = Some D' /\ WInv D' [] s' /\ (nxt s < nxt s')%nat.
Proof.
  intros p s D prm s' em W E. set (v := vnew (nxt s)).
  set (s1 := mkSt (S (nxt s)) ((zpid p, v) :: lay s) (cache s)).
  assert (W1 : WInv (v :: D) [] s1).
  { destruct W. pose proof (vnew_S (nxt s)) as HS. split; cbn [nxt lay cache s1]; auto.
    - intros u [[<-|H]|[]]; rewrite HS; [unfold v, vnew; lia|]. specialize (wi_range u (or_introl H)). lia.
    - intros x u H. cbn [lookup] in H. destruct (x =? zpid p); [injection H as <-; left; auto|right; eauto].
    - intros k b e H u Hu. right. eapply wi_cache; eauto. }
  set (m := match zptype p with
       | PF_ => ret tt
       | PB_ => emit (XCond (XId v) (XMul (XId v) (XId v)) eArgumentBitness)
       | PU_ w => bind (get_bits (UF (XId v) None) w w eSum) (fun _ => ret tt)
       end).
  assert (Hv : vin (v :: D) v) by (left; auto).
  assert (Hm : wfq (v :: D) m (fun _ _ => True)).
  { unfold m. destruct (zptype p); [wft|apply wfq_cond'; auto with wf|]. eapply wfq_bind; [apply wfq_get_bits; auto with wf|]. intros. wft. }
  assert (Em : exists s2 o, m s1 = Some (tt, s2, o) /\ s' = s2 /\ em = o /\ prm = mkParam v (zpprivate p)).
  { unfold use_param in E. unfold bind at 1, fresh in E. cbn [lay nxt cache] in E. unfold bind at 1, set_lay in E. cbn [lay nxt cache] in E.
    fold v in E. fold s1 in E. fold m in E. unfold bind, ret in E. destruct (m s1) as [[[t s2] o]|] eqn:Em; [|discriminate].
    injection E as <- <- <-. destruct t. exists s2, o. cbn. rewrite ?app_nil_r. auto. }
  destruct Em as [s2 [o [Em [-> [-> ->]]]]]. split; [auto|].
  destruct (Hm [] s1 tt s2 o W1 Em) as [D' [P' [F' [W' [-> _]]]]]. exists D'. split; [auto|]. split; [auto|].
  destruct W'. specialize (wi_range v (or_introl (fintro_all_incl _ _ _ F' v (or_introl eq_refl)))). unfold v, vnew in wi_range. lia.
Qed.
Lemma wf_params : forall ps s D prms s' em, WInv D [] s -> mapM use_param ps s = Some (prms, s', em) ->
  (exists D', fintro_all (map pid prms ++ D) em = Some D' /\ WInv D' [] s') /\ NoDup (map pid prms) /\ length prms = length ps /\ (nxt s <= nxt s')%nat /\
  (forall v, In v (map pid prms) -> vnew (nxt s) <= v < vnew (nxt s')).
Proof.
  induction ps as [|p ps IH]; intros s D prms s' em W E; cbn [mapM] in E.
  - injection E as <- <- <-. split; [exists D; auto|]. repeat split; [constructor|auto|destruct H|destruct H].
  - unfold bind, ret in E. destruct (use_param p s) as [[[q s1] o1]|] eqn:E1; [|discriminate].
    destruct (mapM use_param ps s1) as [[[qs s2] o2]|] eqn:E2; [|discriminate]. injection E as <- <- <-. rewrite app_nil_r.
    destruct (wf_param _ _ _ _ _ _ W E1) as [Hq [D1 [F1 [W1 L1]]]].
    destruct (IH _ _ _ _ _ W1 E2) as [[D2 [F2 W2]] [N2 [Hl [Hn HR]]]].
    cbn [map app]. rewrite Hq. set (v := vnew (nxt s)) in *. assert (Hv1 : v < vnew (nxt s1)) by (unfold v, vnew; lia).
    assert (HX : forall u, In u (map pid qs) -> ~ In u D1).
    { intros u Hu Hd. specialize (HR u Hu). destruct W1. specialize (wi_range u (or_introl Hd)). lia. }
    split; [|split; [|split; [cbn; congruence|split; [lia|]]]].
    + destruct (frame o1 (v :: D) D1 (map pid qs) (v :: map pid qs ++ D) F1) as [E3 [F3 H3]].
      * intros u. cbn. rewrite in_app_iff. tauto.
      * intros u Hu. left. auto.
      * destruct (frame o2 (map pid qs ++ D1) D2 [] E3 F2) as [E4 [F4 H4]].
        -- intros u. rewrite H3, in_app_iff. cbn. tauto.
        -- intros u [].
        -- exists E4. rewrite fintro_all_app, F3. split; auto. apply (WInv_set D2); auto. intros u. rewrite H4. cbn. tauto.
    + constructor; auto. intros Hin. specialize (HR v Hin). lia.
    + intros u [<-|Hu]; [unfold v, vnew in *; lia|]. specialize (HR u Hu). unfold v, vnew in *. lia.
Qed.

(** ** Programs: statements without Return, then one Return *)
Definition ends_return (p : zprog) : Prop := exists ss es, zbody p = ss ++ [ZReturn es] /\ length es = zret p /\ Forall noret ss.

Lemma flat_stmts_app : forall a b s x s' em, flat_stmts_z (a ++ b) s = Some (x, s', em) ->
  exists s1 o1 o2 t, flat_stmts_z a s = Some (t, s1, o1) /\ flat_stmts_z b s1 = Some (x, s', o2) /\ em = o1 ++ o2.
Proof.
  induction a as [|z a IH]; intros b s x s' em E; cbn [app flat_stmts_z] in *.
  - exists s, [], em, tt. auto.
  - unfold bind in E |- *. destruct (flat_stmt z s) as [[[t1 s1] o1]|]; [|discriminate].
    destruct (flat_stmts_z (a ++ b) s1) as [[[t2 s2] o2]|] eqn:E2; [|discriminate]. injection E as <- <- <-.
    destruct (IH _ _ _ _ _ E2) as [s3 [o3 [o4 [t [A [B ->]]]]]]. rewrite A. exists s3, (o1 ++ o3), o4, t. rewrite app_assoc. auto.
Qed.
Lemma wf_stmts : forall ss, Forall noret ss -> forall D, wfq D (flat_stmts_z ss) (fun _ _ => True).
Proof.
  induction 1 as [|s r Hs Hr IH]; intros D; cbn [flat_stmts_z]; [wft|]. eapply wfq_bind; [apply wfq_stmt; auto|]. intros. apply IH.
Qed.
Lemma is_output_vpub : forall i, vpub i < 0.
Proof. intros. unfold vpub. lia. Qed.
Lemma wf_returns : forall us k D, Forall (uok D) us -> (forall i, (k <= i)%nat -> ~ In (vpub i) D) ->
  exists D', fintro_all D (zip2 (fun i u => XDef (vpub i) (getf u) None) (seq k (length us)) us) = Some D' /\
    (forall i, (k <= i < k + length us)%nat -> In (vpub i) D').
Proof.
  induction us as [|u us IH]; intros k D H Hk; cbn [length seq zip2 fintro_all].
  - exists D. split; auto. intros i Hi. lia.
  - inversion H as [|? ? H1 H2]; subst. cbn [fintro].
    assert (E1 : subset (fvars (getf u)) D = true) by (apply subset_incl; apply (uok_f _ _ H1)).
    assert (E2 : mem (vpub k) D = false) by (destruct (mem (vpub k) D) eqn:E; auto; apply mem_In in E; exfalso; apply (Hk k); auto).
    rewrite E1, E2. cbn [andb negb].
    assert (Hi : incl D (vpub k :: D)) by (intros x Hx; right; auto).
    destruct (IH (S k) (vpub k :: D)) as [D' [F' HD']].
    + eapply Forall_impl; [|exact H2]. intros; eapply uok_mono; eauto.
    + intros i Hik [Hv|Hv]; [unfold vpub in Hv; lia|]. apply (Hk i); auto. lia.
    + exists D'. split; auto. intros i Hir. destruct (Nat.eq_dec i k) as [->|]; [apply (fintro_all_incl _ _ _ F'); left; auto|]. apply HD'. lia.
Qed.
Theorem codegen_wf : forall p prms em, ends_return p -> codegen p = Some (prms, em) ->
  (exists D, fintro_all (vone :: map pid prms) em = Some D /\ forall i, (i < zret p)%nat -> In (vpub i) D) /\
  NoDup (vone :: map pid prms) /\ length prms = length (zargs p).
Proof.
  intros p prms em [ss [es [Eb [Hl Hn]]]] E. unfold codegen, codegen_m in E.
  match type of E with (match ?m with _ => _ end) = _ => destruct m as [[[x s] o]|] eqn:Er; [|discriminate] end.
  injection E as <- <-. unfold bind, ret in Er.
  destruct (mapM use_param (zargs p) init_st) as [[[qs s1] o1]|] eqn:E1; [|discriminate].
  destruct (flat_stmts_z (zbody p) s1) as [[[t s2] o2]|] eqn:E2; [|discriminate]. injection Er as <- <- <-. rewrite app_nil_r.
  assert (W0 : WInv [vone] [] init_st).
  { split; cbn; auto; [|constructor|discriminate|contradiction]. intros v [[<-|[]]|[]]. unfold vone, vnew. cbn. lia. }
  destruct (wf_params _ _ _ _ _ _ W0 E1) as [[D1 [F1 W1]] [N1 [L1 [_ R1]]]].
  destruct (frame o1 (map pid qs ++ [vone]) D1 [] (vone :: map pid qs) F1) as [D2 [F2 H2]].
  { intros u. cbn. rewrite in_app_iff. cbn. tauto. }
  { intros u []. }
  assert (W2 : WInv D2 [] s1) by (apply (WInv_set D1); auto; intros u; rewrite H2; cbn; tauto).
  split; [|split; auto].
  - rewrite Eb in E2. destruct (flat_stmts_app _ _ _ _ _ _ E2) as [s3 [o3 [o4 [t3 [A [B ->]]]]]].
    destruct (wf_stmts ss Hn D2 [] s1 t3 s3 o3 W2 A) as [D3 [P3 [F3 [W3 [-> _]]]]].
    cbn [flat_stmts_z flat_stmt] in B. unfold bind, ret, emits in B.
    destruct (mapM flat es s3) as [[[us s4] o5]|] eqn:E5; [|discriminate]. injection B as <- <- <-.
    destruct (wfq_flats es D3 [] s3 us s4 o5 W3 E5) as [D4 [P4 [F4 [W4 [-> U4]]]]].
    assert (Hlen : length us = length es).
    { clear - E5. revert s3 us s4 o5 E5. induction es as [|e es IH]; intros s us s' o E; cbn [mapM] in E; [injection E as <- <- <-; auto|].
      unfold bind, ret in E. destruct (flat e s) as [[[u s1] o1]|]; [|discriminate]. destruct (mapM flat es s1) as [[[us1 s2] o2]|] eqn:E2; [|discriminate].
      injection E as <- <- <-. cbn. f_equal. eapply IH; eauto. }
    destruct (wf_returns us 0 D4 U4) as [D5 [F5 H5]].
    { intros i _ Hi. destruct W4. specialize (wi_range _ (or_introl Hi)). pose proof (is_output_vpub i). lia. }
    exists D5. rewrite fintro_all_app, F2, fintro_all_app, F3, !fintro_all_app, F4, F5. cbn. split; auto.
    intros i Hi. apply H5. lia.
  - constructor; auto. intros Hin. specialize (R1 vone Hin). unfold vone, vnew in R1. cbn in R1. lia.
Qed.

(** ** The directives use built-in solvers only *)
Definition qd (s : fstmt) : Prop := match s with XDir _ sv _ => builtin sv | _ => True end.
Definition emd {A} (m : M A) : Prop := forall s a s' em, m s = Some (a, s', em) -> Forall qd em.
Lemma emq_emd : forall A (m : M A), emq m -> emd m.
Proof. intros A m H s a s' em E. eapply Forall_impl; [|eapply H; eauto]. intros x Hx. destruct x; cbn in *; auto. Qed.
Lemma emd_bind : forall A B (m : M A) (k : A -> M B), emd m -> (forall a, emd (k a)) -> emd (bind m k).
Proof.
  intros A B m k Hm Hk s b s' em E. unfold bind in E. destruct (m s) as [[[a s1] o1]|] eqn:E1; [|discriminate].
  destruct (k a s1) as [[[b' s2] o2]|] eqn:E2; [|discriminate]. injection E as <- <- <-. apply Forall_app. split; [eapply Hm|eapply Hk]; eauto.
Qed.
Lemma emd_ret : forall A (a : A), emd (ret a).
Proof. intros. apply emq_emd, emq_ret. Qed.
Lemma emd_emits : forall l, Forall qd l -> emd (emits l).
Proof. intros l H s x s' em E. injection E as <- <- <-. auto. Qed.
Lemma emd_flats : forall es, emd (mapM flat es).
Proof. intros. apply emq_emd, emq_mapM'. apply emq_flat. Qed.
Lemma emd_stmt : forall s, emd (flat_stmt s).
Proof.
  apply zstmt_ind'.
  - intros es. cbn [flat_stmt]. apply emd_bind; [apply emd_flats|]. intros us. apply emd_emits. generalize 0%nat.
    induction us; intros k; cbn; constructor; cbn; auto.
  - intros x e. cbn [flat_stmt]. apply emq_emd. apply emq_bind; [apply emq_flat|intros u]. apply emq_bind; [apply emq_bind_name|intros v].
    destruct (getbits u); [apply emq_cput|apply emq_ret].
  - intros c a b Ha Hb. cbn [flat_stmt]. apply emd_bind; [apply emq_emd, emq_flat|intros x]. apply emd_bind; [apply emq_emd, emq_newdef|intros _].
    assert (G : forall l, Forall (fun s => emd (flat_stmt s)) l ->
      emd ((fix go (l : list zstmt) : M unit := match l with [] => ret tt | s :: r => bind (flat_stmt s) (fun _ => go r) end) l)).
    { induction 1 as [|s r Hs Hr IH]; [apply emd_ret|]. apply emd_bind; auto. }
    apply emd_bind; [apply G; auto|]. intros _. apply G; auto.
  - intros e err. apply emq_emd, emq_assertion.
  - intros xs em es. cbn [flat_stmt]. apply emq_emd. apply emq_bind; [apply emq_mapM'; intros e; apply emq_bind; [apply emq_assert|intros _; apply emq_flat]|intros ps].
    apply emq_bind; [apply emq_embed|intros rs]. apply emq_bind; [apply emq_assert|intros _].
    apply emq_bind; [apply emq_zipM; intros; apply emq_bind_name|intros vs]. destruct em; try apply emq_ret.
    apply emq_bind; [apply emq_mapM'; apply emq_flat|intros us]. destruct vs; [apply emq_fail|apply emq_cput].
  - intros f es. cbn [flat_stmt]. apply emd_bind; [apply emd_flats|]. intros us. apply emd_emits. repeat constructor.
Qed.
Lemma emd_codegen : forall p prms em, codegen p = Some (prms, em) -> Forall qd em.
Proof.
  intros p prms em E. unfold codegen in E. destruct (codegen_m p init_st) as [[[x s] o]|] eqn:Er; [|discriminate]. injection E as <- <-.
  assert (H : emd (codegen_m p)).
  { unfold codegen_m. apply emd_bind; [apply emq_emd, emq_mapM', emq_use_param|intros ps]. apply emd_bind; [|intros; apply emd_ret].
    induction (zbody p) as [|z r IH]; cbn [flat_stmts_z]; [apply emd_ret|]. apply emd_bind; [apply emd_stmt|auto]. }
  apply (H _ _ _ _ Er).
Qed.

(** ** A program with a meaning performs no undefined operation *)
Lemma opt_list_each : forall {A B} (f : A -> option B) l, opt_list (map f l) <> None -> Forall (fun x => f x <> None) l.
Proof.
  intros A B f l. induction l as [|x l IH]; intros H; constructor; cbn [map opt_list] in H; destruct (f x); try congruence.
  destruct (opt_list (map f l)); try congruence. apply IH. discriminate.
Qed.
Lemma sem_divs : forall rho e, sem rho e <> None -> divs rho e.
Proof.
  intros rho. assert (A : forall n e, (zsize e < n)%nat -> sem rho e <> None -> divs rho e).
  { induction n as [|n IH]; intros e Hs He; [lia|]. destruct e; cbn [zsize] in Hs; cbn [divs]; auto; cbn [sem] in He.
    - destruct (sem rho e1) as [[]|] eqn:E1; try congruence. destruct (sem rho e2) as [[]|] eqn:E2; try congruence.
      split; [apply IH; [lia|congruence]|]. split; [apply IH; [lia|congruence]|]. destruct op; auto. intros X. injection X as ->. cbn in He.
      unfold sem_fop in He. destruct (Feqb_spec f0 f0); [congruence|contradiction].
    - apply IH; [lia|]. destruct (sem rho e); congruence.
    - destruct (sem rho e1) as [[]|] eqn:E1; try congruence; destruct (sem rho e2) as [[]|] eqn:E2; try congruence; split; apply IH; try lia; congruence.
    - destruct (sem rho e1) as [[]|] eqn:E1; try congruence; destruct (sem rho e2) as [[]|] eqn:E2; try congruence; split; apply IH; try lia; congruence.
    - apply IH; [lia|]. destruct (sem rho e); congruence.
    - destruct (sem rho e1) as [[]|] eqn:E1; try congruence; destruct (sem rho e2) as [[]|] eqn:E2; try congruence; split; apply IH; try lia; congruence.
    - apply IH; [lia|]. destruct (sem rho e); congruence.
    - apply IH; [lia|]. destruct (sem rho e); congruence.
    - apply IH; [lia|]. destruct (sem rho e); congruence.
    - destruct (sem rho e1) as [[]|] eqn:E1; try congruence; destruct (sem rho e2) eqn:E2; try congruence; destruct (sem rho e3) eqn:E3; try congruence.
      repeat split; apply IH; try lia; congruence.
    - destruct (sem rho e) as [v|] eqn:E1; [|congruence]. split; [apply IH; [lia|congruence]|].
      assert (He' : opt_list (map (sem rho) es) <> None) by (destruct v; try congruence; destruct (opt_list (map (sem rho) es)); congruence).
      apply opt_list_each in He'. assert (Hs' : ((fix go (l : list zexp) : nat := match l with [] => 0 | e :: r => zsize e + go r end) es < n)%nat) by lia.
      clear He Hs. induction es as [|e0 r IHr]; auto. inversion He'; subst. split; [apply IH; auto; lia|]. apply IHr; auto; lia. }
  intros e. apply (A (S (zsize e))). lia.
Qed.
Lemma sem_list_divs : forall rho es, sem_list rho es <> None -> Forall (divs rho) es.
Proof. intros rho es H. apply opt_list_each in H. eapply Forall_impl; [|exact H]. intros. apply sem_divs; auto. Qed.
Lemma sem_safe : forall s o, sem_stmt o s <> None -> safe_stmt False o s.
Proof.
  apply (zstmt_ind' (fun s => forall o, sem_stmt o s <> None -> safe_stmt False o s)).
  - intros es o H. cbn in *. apply sem_list_divs. destruct (sem_list (os_env o) es); congruence.
  - intros x e o H. cbn in *. apply sem_divs. destruct (sem (os_env o) e); congruence.
  - intros c a b Ha Hb o H. rewrite sem_if in H. apply safe_if.
    assert (G : forall l, Forall (fun s => forall o, sem_stmt o s <> None -> safe_stmt False o s) l -> forall o, sem_stmts o l <> None -> safe_stmts False o l).
    { induction 1 as [|s r Hs Hr IH]; intros o0 H0; cbn [safe_stmts]; auto. cbn [sem_stmts] in H0.
      destruct (sem_stmt o0 s) as [o1|] eqn:E1; [|congruence]. split; [apply Hs; congruence|]. intros o' [E|[[] _]]. rewrite E1 in E. injection E as <-. apply IH. exact H0. }
    destruct (sem (os_env o) c) as [[]|] eqn:Ec; try congruence. destruct (sem_stmts o a) as [o1|] eqn:Ea; [|congruence].
    split; [apply sem_divs; congruence|]. split; [apply G; auto; congruence|]. intros o' E. injection E as <-. apply G; auto.
  - intros e err o H. cbn in *. apply sem_divs. destruct (sem (os_env o) e); congruence.
  - intros xs em es o H. cbn in *. destruct (sem_list (os_env o) es) as [vs|] eqn:Es; [|congruence].
    split; [apply sem_list_divs; congruence|]. destruct em; auto. intros x E. injection E as ->. cbn in H.
    destruct (Feqb_spec x f0); auto. destruct (Feqb_spec x f1); auto. congruence.
  - intros f es o H. cbn in *. apply sem_list_divs. destruct (sem_list (os_env o) es); congruence.
Qed.
Lemma sem_safes : forall ss o, sem_stmts o ss <> None -> safe_stmts False o ss.
Proof.
  induction ss as [|s r IH]; intros o H; cbn [safe_stmts]; auto. cbn [sem_stmts] in H. destruct (sem_stmt o s) as [o1|] eqn:E; [|congruence].
  split; [apply sem_safe; congruence|]. intros o' [E'|[[] _]]. rewrite E in E'. injection E' as <-. apply IH. exact H.
Qed.
Lemma sem_safe_prog : forall p inputs, sem_prog p inputs <> None -> safe_prog_k False p inputs.
Proof. intros p inputs H rho Er. unfold sem_prog in H. rewrite Er in H. apply sem_safes. destruct (sem_stmts _ (zbody p)); congruence. Qed.

(** ** The end-to-end theorems *)
(** The code generator made no unjustified use of its cache of bit decompositions. *)
Definition cache_safe (p : zprog) : Prop := match codegen p with Some (_, em) => no_unsafe_note em | None => True end.
Definition cache_clean (p : zprog) : Prop := match codegen p with Some (_, em) => no_note em | None => True end.

Lemma compile_inv : forall p c, compile p = Some c -> exists prms em ss, codegen p = Some (prms, em) /\ lower em = Some ss /\ c = mkProg prms (zret p) (map Single ss).
Proof.
  intros p c H. unfold compile in H. destruct (codegen p) as [[prms em]|]; [|discriminate]. destruct (lower em) as [ss|] eqn:E; [|discriminate].
  injection H as <-. eauto 6.
Qed.
Lemma flat_singles : forall ss, flat_stmts (map Single ss) = ss.
Proof. induction ss; cbn; auto. f_equal. auto. Qed.

Theorem compile_def_before_use : forall p c, ends_return p -> compile p = Some c ->
  def_before_use (pargs c) (flat_stmts (pstmts c)) = true /\ NoDup (vone :: map pid (pargs c)) /\ length (pargs c) = length (zargs p) /\ pret c = zret p.
Proof.
  intros p c Hr H. destruct (compile_inv _ _ H) as [prms [em [ss [Ec [El ->]]]]]. cbn [pargs pstmts pret]. rewrite flat_singles.
  destruct (codegen_wf _ _ _ Hr Ec) as [[D [FD _]] [N L]]. split; [|auto]. unfold def_before_use.
  destruct (lower_intro _ _ _ _ (in_eq _ _) FD El) as [o' [-> _]]. auto.
Qed.

Lemma gsat_of : forall w em, no_unsafe_note em -> Forall (fsat w) em -> Forall (gsat w) em.
Proof.
  intros w em H1 H2. unfold no_unsafe_note in H1. rewrite Forall_forall in *. intros s Hs. specialize (H1 s Hs). specialize (H2 s Hs). destruct s; cbn in *; auto. destruct unsafe; [contradiction|auto].
Qed.
Theorem compile_sound : forall p c (w : env), (3 <= required_bits)%nat -> wtp p -> unpacks_checked p -> compile p = Some c -> cache_safe p ->
  let inputs := map (fun q => w (pid q)) (pargs c) in
  safe_prog p inputs -> satisfies w c ->
  sem_prog p inputs = Some (map (fun i => w (vpub i)) (seq 0 (zret p)), logs_of w (flat_stmts (pstmts c))).
Proof.
  intros p c w Hreq Hp Hst H Hs inputs Hsafe [W1 Hsat]. destruct (compile_inv _ _ H) as [prms [em [ss [Ec [El ->]]]]].
  cbn [pargs pstmts] in *. rewrite flat_singles in *. unfold cache_safe in Hs. rewrite Ec in Hs.
  rewrite (lower_logs _ _ _ W1 El).
  destruct (codegen_ok (fun _ _ => None) w False True Hreq p prms em Hp Ec (or_intror (conj Logic.I Hst)) Hsafe) as [A _]. apply A; [|contradiction].
  apply gsat_of; auto. apply (lower_sat _ _ _ W1 El). auto.
Qed.

Lemma total_builtin : forall ext s, qd s -> (match s with XNote _ => False | _ => True end) -> total_on (exec_solver ext) s.
Proof.
  intros ext s Hq Hn. destruct s as [| |outs sv ins| |]; cbn in *; auto. intros xs Hl.
  destruct (exec_solver_total ext sv xs) as [r Hr]; auto; [intros k i o ->; contradiction|]. exists r. split; auto. eapply exec_solver_arity; eauto.
Qed.
Lemma bind_params_len : forall ps rho xs rho', bind_params rho ps xs = Some rho' -> length ps = length xs.
Proof.
  induction ps as [|p ps IH]; intros rho [|x xs] rho' H; cbn in *; try discriminate; auto. destruct (val_of_input (zptype p) x); [|discriminate]. f_equal. eauto.
Qed.
Lemma assign_inputs : forall (vs : list var) (xs : list F), NoDup vs -> length vs = length xs -> ~ In vone vs ->
  exists w : env, w vone = f1 /\ map w vs = xs.
Proof.
  intros vs xs Hn Hl H1. exists (upds (fun _ => f1) vs xs). split; [rewrite (upds_other vs xs); auto|apply upds_map; auto].
Qed.
Theorem compile_complete : forall ext p c (inputs : list F) rets logs, (3 <= required_bits)%nat -> wtp p -> ends_return p -> compile p = Some c -> cache_clean p ->
  sem_prog p inputs = Some (rets, logs) ->
  exists w, exec_prog (exec_solver ext) (pargs c) (flat_stmts (pstmts c)) inputs = Done w logs /\
    map (fun i => sget (vpub i) w) (seq 0 (zret p)) = map Some rets.
Proof.
  intros ext p c inputs rets logs Hreq Hp Hr H Hs Hsem. destruct (compile_inv _ _ H) as [prms [em [ss [Ec [El ->]]]]].
  destruct (compile_def_before_use p _ Hr H) as [Hd [Hn [Hl _]]]. cbn [pargs pstmts] in *. rewrite flat_singles in *.
  unfold cache_clean in Hs. rewrite Ec in Hs.
  assert (Hlen : length prms = length inputs).
  { rewrite Hl. unfold sem_prog in Hsem. destruct (bind_params (fun _ => None) (zargs p) inputs) as [rho|] eqn:E; [|discriminate]. eapply bind_params_len; eauto. }
  destruct (codegen_wf _ _ _ Hr Ec) as [[D [FD HD]] _].
  inversion Hn as [|? ? Hn1 Hn2]; subst.
  destruct (assign_inputs (map pid prms) inputs Hn2 ltac:(rewrite map_length; auto) Hn1) as [w0 [Hw1 Hwi]].
  destruct (honest_exists (exec_solver ext) em _ _ FD) with (w := w0) as [w [Ha Hh]].
  { pose proof (emd_codegen _ _ _ Ec) as Hq. unfold no_note in Hs. rewrite Forall_forall in *. intros s Hin. apply total_builtin; auto. specialize (Hs s Hin). exact Hs. }
  assert (W1 : w vone = f1) by (rewrite <- Ha; auto; left; auto).
  assert (Wi : map (fun q => w (pid q)) prms = inputs).
  { rewrite <- Hwi, map_map. apply map_ext_in. intros q Hq. symmetry. apply Ha. right. apply in_map. auto. }
  assert (Hsafe : safe_prog_k False p (map (fun q => w (pid q)) prms)) by (rewrite Wi; apply sem_safe_prog; congruence).
  destruct (codegen_ok ext w True False Hreq p prms em Hp Ec (or_introl Logic.I) Hsafe) as [A B]. rewrite Wi in A, B.
  assert (Hf : Forall (fsat w) em) by (apply B; auto; congruence).
  specialize (A (hon_gsat _ _ _ Hh Hf) (fun _ => Hh)). rewrite Hsem in A. injection A as Hrets Hlogs.
  destruct (exec_prog_complete PF (exec_solver ext) prms ss inputs w Hd Hn Hlen W1 Wi) as [w' [E1 [E2 E3]]].
  { apply (lower_sat _ _ _ W1 El). auto. }
  { eapply lower_follows; eauto. }
  exists w'. rewrite (lower_logs _ _ _ W1 El), <- Hlogs in E1. split; [exact E1|]. rewrite Hrets, map_map. apply map_ext_in. intros i Hi. apply in_seq in Hi.
  (* the return variable is known at the end of the execution *)
  assert (Hv : exists x, sget (vpub i) w' = Some x).
  { destruct (lower_intro _ _ _ _ (in_eq _ _) FD El) as [D' [F' [I1 _]]].
    destruct (exec_follows (exec_solver ext) prms ss inputs w' _ D' (exec_solver_arity ext) F' Hn E1) as [_ [_ [_ [_ [_ [_ X]]]]]].
    apply X. apply I1. apply HD. lia. }
  destruct Hv as [x Hx]. rewrite Hx. f_equal. apply E2. auto.
Qed.

(** ... followed by the constraint optimiser *)
Theorem compile_optimize_sound : forall ext (hash : stmt -> Z) p c c' s4 (w : env), (3 <= required_bits)%nat -> wtp p -> unpacks_checked p -> ends_return p -> compile p = Some c -> cache_safe p ->
  optimize_4 (exec_solver ext) (pargs c) (pret c) (flat_stmts (pstmts c)) = Some s4 ->
  (forall a b, In a s4 -> In b s4 -> hash a = hash b -> strip a = strip b) ->
  optimize (exec_solver ext) hash c = Some c' ->
  let inputs := map (fun q => w (pid q)) (pargs c') in
  safe_prog p inputs -> satisfies w c' ->
  exists logs, sem_prog p inputs = Some (map (fun i => w (vpub i)) (seq 0 (zret p)), logs).
Proof.
  intros ext hash p c c' s4 w Hreq Hp Hst Hr H Hs H4 Hh Ho. destruct (compile_def_before_use _ _ Hr H) as [Hd _].
  pose proof H as H'. destruct (compile_inv _ _ H') as [prms [em [ss [Ec [El ->]]]]]. cbn [pargs pstmts pret] in *. rewrite flat_singles in *.
  rewrite optimize_is_flat in Ho. destruct (optimize_flat (exec_solver ext) hash prms (zret p) ss) as [out|] eqn:Ef; [|discriminate].
  injection Ho as <-. cbn [pargs pstmts]. set (inputs := map (fun q => w (pid q)) prms). intros Hsafe [W1 Hsat]. cbn [pargs pstmts] in *. rewrite flat_singles in Hsat.
  destruct (optimizer_sound PF (exec_solver ext) hash prms (zret p) ss s4 out Hd H4 Hh Ef w W1 Hsat) as [w0 [A1 [A2 A3]]].
  assert (Ei : inputs = map (fun q => w0 (pid q)) prms).
  { apply map_ext_in. intros q Hq. symmetry. apply A3. right. left. apply in_map. auto. }
  pose proof (compile_sound p _ w0 Hreq Hp Hst H Hs) as S. cbn [pargs pstmts] in S. rewrite <- Ei in S. rewrite S; auto.
  - eexists. f_equal. f_equal. apply map_ext_in. intros i Hi. apply in_seq in Hi. apply A3. right. right. exists i. split; auto. lia.
  - split; auto. cbn [pstmts]. rewrite flat_singles. auto.
Qed.
Theorem compile_optimize_complete : forall ext (hash : stmt -> Z) p c (inputs : list F) rets logs, (3 <= required_bits)%nat -> wtp p -> ends_return p -> compile p = Some c -> cache_clean p ->
  sem_prog p inputs = Some (rets, logs) ->
  exists s4, optimize_4 (exec_solver ext) (pargs c) (pret c) (flat_stmts (pstmts c)) = Some s4 /\
  ((forall a b, In a s4 -> In b s4 -> hash a = hash b -> strip a = strip b) ->
   exists c' w logs', optimize (exec_solver ext) hash c = Some c' /\
     exec_prog (exec_solver ext) (pargs c') (flat_stmts (pstmts c')) inputs = Done w logs' /\
     map (fun i => sget (vpub i) w) (seq 0 (zret p)) = map Some rets /\ (forall e, In e logs' <-> In e logs)).
Proof.
  intros ext hash p c inputs rets logs Hreq Hp Hr H Hs Hsem.
  destruct (compile_complete ext p c inputs rets logs Hreq Hp Hr H Hs Hsem) as [w [Ex Hrets]].
  destruct (compile_def_before_use _ _ Hr H) as [Hd [Hn _]].
  pose proof H as H'. destruct (compile_inv _ _ H') as [prms [em [ss [Ec [El ->]]]]]. cbn [pargs pstmts pret] in *. rewrite flat_singles in *.
  destruct (optimize_exec (exec_solver ext) hash prms (zret p) ss inputs w logs (exec_solver_arity ext) Hd Hn Ex) as [s4 [H4 Hx]].
  exists s4. split; auto. intros Hh. destruct (Hx Hh) as [out [w' [logs' [A1 [A2 [A3 A4]]]]]].
  rewrite optimize_is_flat, A1. exists (mkProg prms (zret p) (map Single out)), w', logs'. split; auto. cbn [pargs pstmts]. rewrite flat_singles.
  split; auto. split; auto. rewrite <- Hrets. apply map_ext_in. intros i Hi. apply in_seq in Hi.
  assert (Hsome : exists x, sget (vpub i) w = Some x).
  { apply (f_equal (fun l => nth_error l i)) in Hrets. rewrite !nth_error_map in Hrets.
    assert (E1 : nth_error (seq 0 (zret p)) i = Some i) by (rewrite (nth_error_nth' _ 0%nat) by (rewrite seq_length; lia); rewrite seq_nth by lia; auto).
    rewrite E1 in Hrets. cbn in Hrets. destruct (nth_error rets i) as [x|]; [|discriminate]. cbn in Hrets. injection Hrets as Hrets. eauto. }
  destruct Hsome as [x Hsome]. rewrite Hsome. apply A3; auto. right. right. exists i. split; auto. lia.
Qed.
End CgEnd.
