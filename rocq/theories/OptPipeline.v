(** The whole optimiser on programs without assembly blocks. *)
From Coq Require Import ZArith List Bool Lia Ring Field.
From Verif Require Import PField SMap IR IRSpec Wf IRProofs Interp InterpProofs Optimizer OptimizerProofs.
Import ListNotations.
Open Scope Z_scope.
Local Arguments Z.eqb : simpl never.

Section Pipeline.
Context {PF : PrimeField}.
Add Ring Fr : F_ring_th.
Variable solve : solver -> list F -> option (list F).

Lemma vpub_is_output : forall i, is_output (vpub i) = true.
Proof. intros i. unfold is_output, vpub. apply Z.ltb_lt. lia. Qed.

Lemma intro_all_incl : forall ss D D1, intro_all D ss = Some D1 -> incl D D1.
Proof.
  induction ss as [|s r IH]; intros D D1 H; simpl in H; [inversion H; apply incl_refl|].
  destruct (intro D s) as [Da|] eqn:E; [|discriminate].
  exact (incl_tran (proj1 (intro_mono _ _ _ E)) (IH _ _ H)).
Qed.

Lemma redef_init_inv : forall args ret,
  RInv' (redef_init args ret) (vone :: map pid args) (vone :: map pid args).
Proof.
  intros args ret. unfold redef_init. split.
  - constructor; simpl.
    + left; auto.
    + apply incl_refl.
    + intros v [H|H]; [left; auto|]. right. apply in_or_app; auto.
    + auto.
    + auto.
    + congruence.
    + discriminate.
    + congruence.
  - simpl. intros v [H|H]; [left; left; auto|]. apply in_app_or in H. destruct H as [H|H]; [left; right; auto|right].
    apply in_map_iff in H. destruct H as [i [<- _]]. apply vpub_is_output.
Qed.

Lemma dir_init_inv : forall D, In vone D -> DInv dir_init D D.
Proof.
  intros D H. constructor; simpl; auto.
  - apply incl_refl.
  - congruence.
  - discriminate.
Qed.

(** The variables whose values the user observes: ~one, the arguments, the returns. *)
Definition interface (args : list param) (ret : nat) (v : var) : Prop :=
  v = vone \/ In v (map pid args) \/ exists i, (i < ret)%nat /\ v = vpub i.

Lemma ign_kept : forall ss st st1 out, run_pass (redef_step solve false) st ss = Some (st1, out) ->
  incl (rign st) (rign st1).
Proof.
  induction ss as [|s r IH]; intros st st1 out H; cbn [run_pass] in H.
  - inversion H; apply incl_refl.
  - destruct (redef_step solve false st s) as [[sa oa]|] eqn:E; [|discriminate].
    destruct (run_pass (redef_step solve false) sa r) as [[sb ob]|] eqn:E2; [|discriminate].
    inversion H; subst. eapply incl_tran; [|eapply IH; eauto].
    destruct s as [q l e|outs sv ins|f es]; simpl in E.
    + destruct (redef_lin (rsub st) l) as [|[v0 c0] r0]; [inversion E; apply incl_refl|].
      destruct (vmem v0 (rign st) || _); [inversion E; apply incl_refl|].
      destruct (lc_try_summand _) as [[v k]|]; [|inversion E; apply incl_refl].
      destruct (q_try_linear _) as [lin|].
      * destruct (lc_div lin k); inversion E; apply incl_refl.
      * inversion E; simpl. apply incl_tl, incl_refl.
    + destruct (all_consts _) as [ks|].
      * destruct (solve sv ks) as [res|]; [|discriminate]. destruct (Nat.eqb _ _); inversion E; apply incl_refl.
      * inversion E; simpl. apply incl_appr, incl_refl.
    + inversion E; apply incl_refl.
Qed.

Lemma redef_pass_ok : forall args ret ss D1 st1 out,
  intro_all (vone :: map pid args) ss = Some D1 ->
  run_pass (redef_step solve false) (redef_init args ret) ss = Some (st1, out) ->
  (exists K1, intro_all (vone :: map pid args) out = Some K1 /\ forall v, interface args ret v -> In v D1 -> In v K1) /\
  (forall w, w vone = f1 -> sat w out -> exists w0, sat w0 ss /\ (forall v, interface args ret v -> w0 v = w v)) /\
  (forall w, w vone = f1 -> sat w ss -> follows solve w ss ->
     sat w out /\ follows solve w out /\ logs_of w out = logs_of w ss).
Proof.
  intros args ret ss D1 st1 out Hi Hr.
  destruct (pass_ok solve _ _ _ _ _ _ (redef_step_ok solve) _ _ _ _ _ _ _ (redef_init_inv args ret) (or_introl eq_refl) Hi Hr)
    as [K1 [A1 [[A2 A2'] [A3 [A4 A5]]]]].
  assert (Hint : forall v, interface args ret v -> aget v (rsub st1) = None).
  { intros v Hv. destruct (aget v (rsub st1)) eqn:E; [|auto]. exfalso.
    apply (ri_out _ _ _ A2 v); [congruence|]. apply (ign_kept _ _ _ _ Hr). unfold redef_init; simpl.
    destruct Hv as [->|[Hv|[i [Hi' ->]]]]; [left; auto|right; apply in_or_app; auto|].
    right. apply in_or_app; right. apply in_map, in_seq. lia. }
  split.
  { exists K1. split; auto. intros v Hv HD. destruct (ri_D _ _ _ A2 v HD) as [|H]; auto. exfalso; apply H; auto. }
  split.
  - intros w Hw Hs. exists (rlift (rsub st1) w). split; [apply A4; auto|].
    intros v Hv. unfold rlift. rewrite Hint; auto.
  - intros w Hw Hs Hf. destruct (A5 w Hw) as [B1 [B2 [B3 B4]]]; auto. simpl. intros v l H; discriminate.
Qed.

Lemma unit_pass_ok : forall (step : unit -> stmt -> option (unit * list stmt)) D ss D1 st1 out,
  step_ok solve unit step UInv (fun _ w => w) (fun _ _ => True) True -> In vone D ->
  intro_all D ss = Some D1 -> run_pass step tt ss = Some (st1, out) ->
  intro_all D out = Some D1 /\
  (forall w, w vone = f1 -> sat w out -> sat w ss) /\
  (forall w, w vone = f1 -> sat w ss -> follows solve w ss ->
     sat w out /\ follows solve w out /\ logs_of w out = logs_of w ss).
Proof.
  intros step D ss D1 st1 out Hok Hone Hi Hr.
  destruct (pass_ok solve _ _ _ _ _ _ Hok _ _ _ _ _ _ _ (eq_refl : UInv tt D D) Hone Hi Hr) as [K1 [A1 [A2 [_ [A4 A5]]]]].
  unfold UInv in A2. subst K1. split; [auto|]. split; [auto|].
  intros w Hw Hs Hf. destruct (A5 w Hw I Hs Hf) as [_ [B1 [B2 B3]]]. auto.
Qed.

Lemma dir_pass_ok : forall D ss D1 st1 out,
  In vone D -> intro_all D ss = Some D1 -> run_pass dir_step dir_init ss = Some (st1, out) ->
  (exists K1, intro_all D out = Some K1 /\ forall v, In v D \/ is_output v = true -> In v D1 -> In v K1) /\
  (forall w, w vone = f1 -> sat w out -> exists w0, sat w0 ss /\
     (forall v, In v D \/ is_output v = true -> w0 v = w v)) /\
  (forall w, w vone = f1 -> sat w ss -> follows solve w ss ->
     sat w out /\ follows solve w out /\ logs_of w out = logs_of w ss).
Proof.
  intros D ss D1 st1 out Hone Hi Hr.
  destruct (pass_ok solve _ _ _ _ _ _ (dir_step_ok solve) _ _ _ _ _ _ _ (dir_init_inv D Hone) Hone Hi Hr)
    as [K1 [A1 [A2 [A3 [A4 A5]]]]].
  split.
  { exists K1. split; auto. intros v Hv H1. destruct Hv as [Hv|Hv].
    - exact (intro_all_incl _ _ _ A1 _ Hv).
    - assert (Hn : aget v (dsub st1) = None).
      { destruct (aget v (dsub st1)) eqn:E; auto. exfalso. destruct (di_dom _ _ _ A2 v) as [_ H]; congruence. }
      pose proof (di_D _ _ _ A2 v H1) as H. unfold dir_var in H. rewrite Hn in H. auto. }
  split.
  - intros w Hw Hs. exists (dlift (dsub st1) w). split; [apply A4; auto|].
    intros v [Hv|Hv].
    + rewrite A3 by auto. reflexivity.
    + unfold dlift, dir_var. destruct (aget v (dsub st1)) eqn:E; auto. exfalso.
      destruct (di_dom _ _ _ A2 v) as [_ H]; congruence.
  - intros w Hw Hs Hf. destruct (A5 w Hw) as [_ [B1 [B2 B3]]]; auto.
    split; [reflexivity|]. simpl. discriminate.
Qed.

Lemma interface_out : forall args ret v, interface args ret v -> In v (vone :: map pid args) \/ is_output v = true.
Proof.
  intros args ret v [->|[H|[i [_ ->]]]]; [left; left; auto|left; right; auto|right; apply vpub_is_output].
Qed.

Lemma optimize_4_ok : forall args ret ss out D1,
  intro_all (vone :: map pid args) ss = Some D1 -> optimize_4 solve args ret ss = Some out ->
  (exists K1, intro_all (vone :: map pid args) out = Some K1 /\ forall v, interface args ret v -> In v D1 -> In v K1) /\
  (forall w, w vone = f1 -> sat w out -> exists w0, sat w0 ss /\ (forall v, interface args ret v -> w0 v = w v)) /\
  (forall w, w vone = f1 -> sat w ss -> follows solve w ss ->
     sat w out /\ follows solve w out /\ logs_of w out = logs_of w ss).
Proof.
  unfold optimize_4. intros args ret ss out D1 Ei H.
  destruct (run_pass (redef_step solve false) (redef_init args ret) ss) as [[st1 s1]|] eqn:E1; [|discriminate].
  destruct (run_pass taut_step tt s1) as [[st2 s2]|] eqn:E2; [|discriminate].
  destruct (run_pass canon_pass_step tt s2) as [[st3 s3]|] eqn:E3; [|discriminate].
  destruct (run_pass dir_step dir_init s3) as [[st4 s4]|] eqn:E4; [|discriminate].
  inversion H; subst s4.
  destruct (redef_pass_ok _ _ _ _ _ _ Ei E1) as [[K1 [A1 A1']] [A2 A3]].
  assert (Hone : In vone (vone :: map pid args)) by (left; auto).
  destruct (unit_pass_ok _ _ _ _ _ _ (taut_step_ok solve) Hone A1 E2) as [B1 [B2 B3]].
  destruct (unit_pass_ok _ _ _ _ _ _ (canon_step_ok solve) Hone B1 E3) as [C1 [C2 C3]].
  destruct (dir_pass_ok _ _ _ _ _ Hone C1 E4) as [[K4 [D1' D1'']] [D2 D3]].
  split.
  { exists K4. split; auto. intros v Hv HD. apply D1''; auto. eapply interface_out; eauto. }
  split.
  - intros w Hw Hs. destruct (D2 w Hw Hs) as [w3 [S3 I3]].
    assert (Hw3 : w3 vone = f1) by (rewrite I3; auto).
    destruct (A2 w3 Hw3 (B2 _ Hw3 (C2 _ Hw3 S3))) as [w0 [S0 I0]].
    exists w0. split; auto. intros v Hv. rewrite I0 by auto. apply I3. eapply interface_out; eauto.
  - intros w Hw Hs Hf. destruct (A3 w Hw Hs Hf) as [P1 [P2 P3]]. destruct (B3 w Hw P1 P2) as [Q1 [Q2 Q3]].
    destruct (C3 w Hw Q1 Q2) as [R1 [R2 R3]]. destruct (D3 w Hw R1 R2) as [S1 [S2 S3]].
    split; [auto|]. split; [auto|]. congruence.
Qed.

(** Duplicates only removes statements. *)
Section Dup.
Variable hash : stmt -> Z.
Lemma dup_incl : forall ss seen st1 out, run_pass (dup_step hash) seen ss = Some (st1, out) -> incl out ss.
Proof.
  induction ss as [|s r IH]; intros seen st1 out H; cbn [run_pass dup_step] in H; [inversion H; apply incl_refl|].
  destruct (run_pass _ _ r) as [[sb ob]|] eqn:E; [|discriminate]. inversion H; subst.
  apply incl_app; [|apply incl_tl; eauto]. destruct (existsb _ _); [intros x []|intros x [<-|[]]; left; auto].
Qed.

Lemma dup_logs : forall univ, (forall a b, In a univ -> In b univ -> hash a = hash b -> strip a = strip b) ->
  forall ss seen st1 out pre, incl pre univ -> incl ss univ -> (forall h, In h seen <-> In h (map hash pre)) ->
  run_pass (dup_step hash) seen ss = Some (st1, out) -> 
  forall f es, In (Log f es) ss -> In (Log f es) pre \/ In (Log f es) out.
Proof.
  intros univ Hnc. induction ss as [|s r IH]; intros seen st1 out pre Hp Hs Hseen H f es Hin; [destruct Hin|].
  cbn [run_pass dup_step] in H. destruct (run_pass _ _ r) as [[sb ob]|] eqn:E; [|discriminate]. inversion H; subst. clear H.
  assert (Hsu : In s univ) by (apply Hs; left; auto).
  destruct Hin as [->|Hin].
  - match goal with |- context[existsb ?g seen] => destruct (existsb g seen) eqn:Ex end; [left|right; left; auto].
    apply existsb_exists in Ex. destruct Ex as [h [Hh1 Hh2]]. apply Z.eqb_eq in Hh2. subst h.
    apply Hseen, in_map_iff in Hh1. destruct Hh1 as [s0 [Hh Hi]].
    assert (strip s0 = strip (Log f es)) by (apply Hnc; auto).
    destruct s0; simpl in *; try discriminate. inversion H; subst; auto.
  - assert (Hp1 : incl (pre ++ [s]) univ) by (apply incl_app; auto; intros x [<-|[]]; auto).
    assert (Hs1 : incl r univ) by (intros x Hx; apply Hs; right; auto).
    assert (Hseen1 : forall h, In h (hash s :: seen) <-> In h (map hash (pre ++ [s]))).
    { intros h. rewrite map_app, in_app_iff. simpl. rewrite Hseen. tauto. }
    destruct (IH _ _ _ _ Hp1 Hs1 Hseen1 E f es Hin) as [H|H]; [|right; apply in_or_app; auto].
    apply in_app_or in H. destruct H as [H|[->|[]]]; [left; auto|].
    match goal with |- context[existsb ?g seen] => destruct (existsb g seen) eqn:Ex end; [left|right; left; auto].
    apply existsb_exists in Ex. destruct Ex as [h [Hh1 Hh2]]. apply Z.eqb_eq in Hh2. subst h.
    apply Hseen, in_map_iff in Hh1. destruct Hh1 as [s0 [Hh Hi]].
    assert (strip s0 = strip (Log f es)) by (apply Hnc; auto).
    destruct s0; simpl in *; try discriminate. inversion H; subst; auto.
Qed.

Lemma run_pass_dup_total : forall ss seen, exists st out, run_pass (dup_step hash) seen ss = Some (st, out).
Proof.
  induction ss as [|s r IH]; intros seen; cbn [run_pass dup_step]; [eauto|].
  destruct (IH (hash s :: seen)) as [st [out ->]]. eauto.
Qed.

Lemma optimize_flat_ok : forall args ret ss s4 out D1,
  intro_all (vone :: map pid args) ss = Some D1 -> optimize_4 solve args ret ss = Some s4 ->
  (forall a b, In a s4 -> In b s4 -> hash a = hash b -> strip a = strip b) ->
  optimize_flat solve hash args ret ss = Some out ->
  (exists K1, intro_all (vone :: map pid args) out = Some K1 /\ forall v, interface args ret v -> In v D1 -> In v K1) /\
  (forall w, w vone = f1 -> sat w out -> exists w0, sat w0 ss /\ (forall v, interface args ret v -> w0 v = w v)) /\
  (forall w, w vone = f1 -> sat w ss -> follows solve w ss ->
     sat w out /\ follows solve w out /\ forall e, In e (logs_of w out) <-> In e (logs_of w ss)).
Proof.
  intros args ret ss s4 out D1 Hd H4 Hnc H. unfold optimize_flat in H. rewrite H4 in H.
  destruct (optimize_4_ok _ _ _ _ _ Hd H4) as [[D4 [E4 A1]] [A2 A3]].
  destruct (run_pass (dup_step hash) [] s4) as [[st5 s5]|] eqn:E; [|discriminate]. inversion H; subst s5.
  destruct (dup_ok hash s4 Hnc s4 [] _ _ _ _ [] (fun x (Hx : In x []) => match Hx with end) (incl_refl _)
              (fun h => conj (fun x => x) (fun x => x)) (Forall_nil _) E4 E) as [B1 [B2 B3]].
  split; [eauto|]. split.
  - intros w Hw Hs. apply A2; auto. apply B3; auto. constructor.
  - intros w Hw Hs Hf. destruct (A3 w Hw Hs Hf) as [C1 [C2 C3]].
    split; [|split].
    + unfold sat in *. rewrite Forall_forall in *. auto.
    + unfold follows in *. rewrite Forall_forall in *. auto.
    + intros e. rewrite <- C3. unfold logs_of. rewrite !in_flat_map. split; intros [s [Hin He]].
      * exists s; split; auto.
      * destruct s as [q l er|o sv i|f es]; try destruct He.
        -- subst e. exists (Log f es). split; [|left; auto].
           destruct (dup_logs s4 Hnc s4 [] _ _ [] (fun x (Hx : In x []) => match Hx with end) (incl_refl _)
              (fun h => conj (fun x => x) (fun x => x)) E f es Hin) as [[]|]; auto.
        -- contradiction.
Qed.
End Dup.

(** The optimiser does not panic if the solvers are total on inputs of the right arity. *)
Definition arity_ok : Prop := forall s xs res, solve s xs = Some res -> length res = snd (solver_sig s).

Lemma redef_no_panic : forall ss D K st w,
  RInv' st D K -> In vone D -> (exists D1, intro_all D ss = Some D1) -> w vone = f1 -> rcons (rsub st) w ->
  sat w ss -> follows solve w ss ->
  exists st1 out, run_pass (redef_step solve false) st ss = Some (st1, out).
Proof.
  induction ss as [|s r IH]; intros D K st w HI Hone [D1 Hi] Hw Hc Hs Hf; [simpl; eauto|].
  cbn [intro_all] in Hi. destruct (intro D s) as [Da|] eqn:Ea; [|discriminate].
  inversion Hs; subst. inversion Hf; subst.
  assert (Hstep : exists sa oa, redef_step solve false st s = Some (sa, oa)).
  { destruct s as [q l e|outs sv ins|f es]; cbn [redef_step]; [| |eauto].
    - cbn [intro] in Ea. destruct (subset (q_vars q) D) eqn:Eq; [|discriminate].
      destruct (subset (lc_vars l) D) eqn:El.
      + apply subset_spec in El. destruct HI as [HI HI2].
        pose proof (redef_lin_vars _ _ _ _ HI El) as HlK.
        destruct (redef_lin (rsub st) l) as [|[v0 c0] r0] eqn:E0; [eauto|].
        assert (Hv0 : vmem v0 (rign st) = true) by (apply vmem_In; eapply ri_K_ign; eauto; apply HlK; left; auto).
        rewrite Hv0. simpl. eauto.
      + destruct l as [|[v c] [|]]; try discriminate. destruct (Feqb_spec c f1) as [->|]; [|discriminate].
        destruct HI as [HI HI2].
        assert (HvD : ~ In v D).
        { intros Hcc. assert (subset (lc_vars [(v, f1)]) D = true); [|congruence].
          apply subset_spec. intros u [<-|[]]; auto. }
        assert (Hsub : aget v (rsub st) = None).
        { destruct (aget v (rsub st)) eqn:E; auto. exfalso. apply HvD, (ri_dom _ _ _ HI). congruence. }
        assert (Hrl : redef_lin (rsub st) [(v, f1)] = [(v, f1)]) by (unfold redef_lin; simpl; rewrite Hsub; reflexivity).
        rewrite Hrl, Hsub. destruct (vmem v (rign st) || false); [eauto|].
        assert (Hsum : lc_coeff_sum [(v, f1)] = f1) by (unfold lc_coeff_sum; simpl; ring).
        unfold lc_try_summand. cbn [forallb fst]. rewrite Z.eqb_refl. cbn [andb]. rewrite Hsum.
        destruct (q_try_linear _); [|eauto]. unfold lc_div.
        destruct (Feqb_spec f1 f0) as [E|]; [exfalso; apply F_1_neq_0; auto|eauto].
    - apply intro_directive_inv in Ea. destruct Ea as [Hins [Hnd [Hout [Hl1 [Hl2 ->]]]]].
      destruct (all_consts (map (redef_input (rsub st)) ins)) as [ks|] eqn:Ec; [|eauto].
      apply all_consts_spec in Ec.
      assert (Hks : map (eval_quad w) ins = ks).
      { clear - Ec Hw Hc. revert ks Ec. induction ins as [|q r' IH]; intros [|k ks] E; simpl in *; try discriminate; auto.
        inversion E as [[E1 E2]]. f_equal; [|apply IH; auto].
        pose proof (proj1 (redef_input_spec (rsub st) q) w Hw) as H. rewrite E1 in H. rewrite H.
        apply eval_quad_ext. intros; symmetry; apply rlift_cons; auto. }
      match goal with H : follows_stmt _ _ _ |- _ => simpl in H; rewrite Hks in H; rewrite H end.
      rewrite map_length, Nat.eqb_refl. eauto. }
  destruct Hstep as [sa [oa Hstep]].
  destruct (redef_step_ok solve _ _ _ _ _ _ _ HI Hone Ea Hstep) as [Ka [A1 [A2 [_ [_ A5]]]]].
  destruct (A5 w Hw Hc) as [C1 _]; auto.
  destruct (IH Da Ka sa w A2) as [sb [ob Hb]]; auto.
  - exact (proj1 (intro_mono _ _ _ Ea) _ Hone).
  - eauto.
  - cbn [run_pass]. rewrite Hstep, Hb. eauto.
Qed.

Lemma optimize_4_total : forall args ret ss w,
  def_before_use args ss = true -> w vone = f1 -> sat w ss -> follows solve w ss ->
  exists out, optimize_4 solve args ret ss = Some out.
Proof.
  intros args ret ss w Hd Hw Hs Hf. unfold def_before_use in Hd.
  destruct (intro_all (vone :: map pid args) ss) as [D1|] eqn:Ei; [|discriminate].
  destruct (redef_no_panic ss _ _ _ w (redef_init_inv args ret) (or_introl eq_refl) (ex_intro _ _ Ei) Hw) as [st1 [s1 H1]]; auto.
  { intros v l H; discriminate. }
  unfold optimize_4. rewrite H1.
  assert (T : exists st s2, run_pass taut_step tt s1 = Some (st, s2)).
  { clear. induction s1 as [|s r IH]; [simpl; eauto|]. destruct IH as [[] [o E]]. 
    destruct s as [q l e| |]; cbn [run_pass taut_step]; [|rewrite E; eauto..].
    destruct (q_try_linear q) as [l'|]; [destruct (lc_eqb l' l)|]; rewrite E; eauto. }
  destruct T as [st2 [s2 ->]].
  assert (T : exists st s3, run_pass canon_pass_step tt s2 = Some (st, s3)).
  { clear. induction s2 as [|s r IH]; [simpl; eauto|]. destruct IH as [[] [o E]]. 
    cbn [run_pass canon_pass_step]; rewrite E; eauto. }
  destruct T as [st3 [s3 ->]].
  assert (T : forall st, exists st' s4, run_pass dir_step st s3 = Some (st', s4)).
  { clear. induction s3 as [|s r IH]; intros st; [simpl; eauto|].
    cbn [run_pass]. assert (exists st' o, dir_step st s = Some (st', o)) as [st' [o ->]].
    { destruct s; simpl; eauto. destruct (call_get _ _); eauto. }
    destruct (IH st') as [st'' [o' ->]]. eauto. }
  destruct (T dir_init) as [st4 [s4 ->]]. eauto.
Qed.

(** Executing the optimised program. *)
Lemma exec_follows : forall args ss (inputs : list F) w log D1, arity_ok ->
  intro_all (vone :: map pid args) ss = Some D1 -> NoDup (vone :: map pid args) ->
  exec_prog solve args ss inputs = Done w log ->
  length args = length inputs /\ env_of w vone = f1 /\ map (fun a => env_of w (pid a)) args = inputs /\
  sat (env_of w) ss /\ follows solve (env_of w) ss /\ log = logs_of (env_of w) ss /\
  (forall v, In v D1 <-> exists x, sget v w = Some x).
Proof.
  intros args ss inputs w log D1 Har Hi Hnd H. unfold exec_prog in H.
  destruct (Nat.eqb_spec (length args) (length inputs)) as [Hl|]; [|discriminate].
  destruct (init_witness_spec args inputs Hl Hnd) as [I1 [I2 I3]].
  assert (Hfr : fresh_outs (vone :: map pid args) ss) by (eapply intro_fresh; eauto; apply incl_refl).
  destruct (exec_inv solve _ _ _ _ _ _ Hfr I3 H) as [E1 [E2 [E3 E4]]].
  assert (Hone : env_of w vone = f1) by (unfold env_of; rewrite (E1 _ _ I1); auto).
  assert (Hfol : follows solve (env_of w) ss).
  { unfold follows. apply Forall_forall. intros s Hs. destruct s as [| outs sv ins|]; simpl; auto.
    destruct (E3 _ _ _ Hs) as [res [R1 R2]]. rewrite R1. f_equal.
    assert (Hlo : length outs = snd (solver_sig sv)).
    { clear - Hi Hs. revert Hi. generalize (vone :: map pid args). induction ss as [|s r IH]; intros D Hi; [destruct Hs|].
      simpl in Hi. destruct (intro D s) as [Da|] eqn:E; [|discriminate]. destruct Hs as [->|Hs]; [|eapply IH; eauto].
      apply intro_directive_inv in E. tauto. }
    rewrite R2. rewrite firstn_all2; auto. rewrite Hlo, (Har _ _ _ R1). auto. }
  split; [auto|]. split; [auto|]. split.
  { clear - I2 E1. revert I2 E1. generalize (init_witness args inputs). intros w0 I2 E1. revert inputs I2.
    induction args as [|a r IH]; intros [|x xs] I2; simpl in *; try discriminate; auto.
    inversion I2 as [[H1 H2]]. f_equal; [|apply IH; auto]. unfold env_of. rewrite (E1 _ _ H1). auto. }
  split; [auto|]. split; [auto|].
  assert (Hdef : forall v, In v (vone :: map pid args) <-> exists x, sget v (init_witness args inputs) = Some x).
  { intros v. split; [|intros [x Hx]; eapply I3; eauto]. intros [<-|Hv]; [eauto|].
    apply in_map_iff in Hv. destruct Hv as [a [<- Ha]].
    apply (in_map (fun a => sget (pid a) (init_witness args inputs))) in Ha. rewrite I2 in Ha.
    apply in_map_iff in Ha. destruct Ha as [x [Hx _]]. eauto. }
  assert (Hag : agrees (init_witness args inputs) (env_of w)).
  { intros v x Hx. unfold env_of. rewrite (E1 _ _ Hx). auto. }
  destruct (exec_complete solve _ _ _ _ [] (env_of w) Hi Hdef Hag E2 Hfol) as [w' [log' [X1 [X2 [X3 X4]]]]].
  rewrite X1 in H. inversion H; subst. split; auto.
Qed.

Lemma exec_of_assignment : forall args ss (inputs : list F) w D1,
  intro_all (vone :: map pid args) ss = Some D1 -> NoDup (vone :: map pid args) ->
  length args = length inputs -> w vone = f1 -> map (fun a => w (pid a)) args = inputs ->
  sat w ss -> follows solve w ss ->
  exists w', exec_prog solve args ss inputs = Done w' (logs_of w ss) /\
    (forall v x, sget v w' = Some x -> x = w v) /\ (forall v, In v D1 <-> exists x, sget v w' = Some x).
Proof.
  intros args ss inputs w D1 Hi Hnd Hl Hw Hin Hs Hf. unfold exec_prog.
  rewrite Hl, Nat.eqb_refl.
  destruct (init_witness_spec args inputs Hl Hnd) as [I1 [I2 I3]].
  assert (Hdef : forall v, In v (vone :: map pid args) <-> exists x, sget v (init_witness args inputs) = Some x).
  { intros v. split; [|intros [x Hx]; eapply I3; eauto]. intros [<-|Hv]; [eauto|].
    apply in_map_iff in Hv. destruct Hv as [a [<- Ha]].
    apply (in_map (fun a => sget (pid a) (init_witness args inputs))) in Ha. rewrite I2 in Ha.
    apply in_map_iff in Ha. destruct Ha as [x [Hx _]]. eauto. }
  assert (Hag : agrees (init_witness args inputs) w).
  { intros v x Hx. pose proof (I3 _ _ Hx) as [<-|Hv]; [congruence|].
    apply in_map_iff in Hv. destruct Hv as [a [<- Ha]]. subst inputs. clear - I2 Ha Hx.
    rewrite map_map in I2. revert I2 Hx. generalize (init_witness args (map (fun a => w (pid a)) args)).
    intros w0 I2 Hx. clear -I2 Hx Ha. induction args as [|b r IH]; [destruct Ha|]. simpl in I2. inversion I2 as [[E1 E2]].
    destruct Ha as [->|Ha]; [|auto]. change (list (Z * F)) with witness in *. congruence. }
  destruct (exec_complete solve _ _ _ _ [] w Hi Hdef Hag Hs Hf) as [w' [log' [X1 [X2 [X3 X4]]]]].
  exists w'. rewrite X1, X4. split; [reflexivity|]. split; [|exact X3]. intros v x Hx. apply X2; auto.
Qed.

Section Exec.
Variable hash : stmt -> Z.
Lemma optimize_exec : forall args ret ss (inputs : list F) w log, arity_ok -> def_before_use args ss = true ->
  NoDup (vone :: map pid args) ->
  exec_prog solve args ss inputs = Done w log ->
  exists s4, optimize_4 solve args ret ss = Some s4 /\
  ((forall a b, In a s4 -> In b s4 -> hash a = hash b -> strip a = strip b) ->
   exists out w' log', optimize_flat solve hash args ret ss = Some out /\
   exec_prog solve args out inputs = Done w' log' /\
   (forall v x, interface args ret v -> sget v w = Some x -> sget v w' = Some x) /\
   (forall e, In e log' <-> In e log)).
Proof.
  intros args ret ss inputs w log Har Hd Hnd H. unfold def_before_use in Hd.
  destruct (intro_all (vone :: map pid args) ss) as [D1|] eqn:Ei; [|discriminate].
  destruct (exec_follows _ _ _ _ _ _ Har Ei Hnd H) as [X1 [X2 [X3 [X4 [X5 [X6 X7]]]]]].
  assert (Hd' : def_before_use args ss = true) by (unfold def_before_use; rewrite Ei; auto).
  destruct (optimize_4_total args ret ss _ Hd' X2 X4 X5) as [s4 H4]. exists s4. split; [auto|]. intros Hnc.
  destruct (run_pass_dup_total hash s4 []) as [st [out Ho]].
  assert (Hof : optimize_flat solve hash args ret ss = Some out) by (unfold optimize_flat; rewrite H4, Ho; auto).
  destruct (optimize_flat_ok hash _ _ _ _ _ _ Ei H4 Hnc Hof) as [[K1 [A1 A1']] [A2 A3]].
  destruct (A3 _ X2 X4 X5) as [B1 [B2 B3]].
  destruct (exec_of_assignment _ _ _ _ _ A1 Hnd X1 X2 X3 B1 B2) as [w' [Y1 [Y2 Y3]]].
  exists out, w', (logs_of (env_of w) out). split; [auto|]. split; [auto|]. split; [|subst log; auto].
  intros v x Hv Ev.
  assert (Hk : In v K1) by (apply A1'; auto; apply X7; eauto). apply Y3 in Hk. destruct Hk as [y Hy].
  rewrite Hy. f_equal. rewrite (Y2 _ _ Hy). unfold env_of. rewrite Ev. auto.
Qed.
End Exec.
End Pipeline.
