(** Proofs about the optimiser passes. *)
From Coq Require Import ZArith List Bool Lia Ring Field.
From Verif Require Import PField SMap IR IRSpec Wf IRProofs Interp InterpProofs Optimizer.
Import ListNotations.
Open Scope Z_scope.
Local Arguments Z.eqb : simpl never.

Section Generic.
Context {PF : PrimeField}.
Add Ring Fr : F_ring_th.
Variable solve : solver -> list F -> option (list F).

Lemma sat_stmt_ext : forall w w' s, (forall v, In v (stmt_vars s) -> w v = w' v) -> sat_stmt w s -> sat_stmt w' s.
Proof.
  intros w w' [q l e|o s i|f es] H; simpl; auto. intros Hs.
  rewrite <- (eval_quad_ext w w'), <- (eval_lin_ext w w'); auto; intros v Hv; apply H; simpl; apply in_or_app; auto.
Qed.

Lemma intro_all_app : forall a b d, intro_all d (a ++ b) =
  match intro_all d a with Some d' => intro_all d' b | None => None end.
Proof.
  induction a as [|s r IH]; intros b d; simpl; auto. destruct (intro d s); auto.
Qed.
Lemma sat_app : forall w a b, sat w (a ++ b) <-> sat w a /\ sat w b.
Proof. intros; apply Forall_app. Qed.
Lemma logs_app : forall w a b, logs_of w (a ++ b) = logs_of w a ++ logs_of w b.
Proof. intros; apply flat_map_app. Qed.

(** One generic simulation argument, instantiated by every pass. *)
Section Pass.
Variable S : Type.
Variable step : S -> stmt -> option (S * list stmt).
Variable Inv : S -> list var -> list var -> Prop.
Variable lift : S -> env -> env.
Variable cons : S -> env -> Prop.
Variable keeps_logs : Prop.

Definition step_ok : Prop := forall st s D K D1 st1 out,
  Inv st D K -> In vone D -> intro D s = Some D1 -> step st s = Some (st1, out) ->
  exists K1, intro_all K out = Some K1 /\ Inv st1 D1 K1 /\
   (forall w, w vone = f1 -> forall v, In v D -> lift st1 w v = lift st w v) /\
   (forall w, w vone = f1 -> sat w out -> sat_stmt (lift st1 w) s) /\
   (forall w, w vone = f1 -> cons st w -> sat_stmt w s -> follows_stmt solve w s ->
      cons st1 w /\ sat w out /\ follows solve w out /\ (keeps_logs -> logs_of w out = logs_of w [s])).

Lemma pass_ok : step_ok -> forall ss st D K D1 st1 out,
  Inv st D K -> In vone D -> intro_all D ss = Some D1 -> run_pass step st ss = Some (st1, out) ->
  exists K1, intro_all K out = Some K1 /\ Inv st1 D1 K1 /\
   (forall w, w vone = f1 -> forall v, In v D -> lift st1 w v = lift st w v) /\
   (forall w, w vone = f1 -> sat w out -> sat (lift st1 w) ss) /\
   (forall w, w vone = f1 -> cons st w -> sat w ss -> follows solve w ss ->
      cons st1 w /\ sat w out /\ follows solve w out /\ (keeps_logs -> logs_of w out = logs_of w ss)).
Proof.
  intros Hstep ss. induction ss as [|s r IH]; intros st D K D1 st1 out HI Hone Hi Hr.
  - simpl in Hr. inversion Hr; subst. simpl in Hi. inversion Hi; subst.
    exists K. repeat split; auto; try constructor.
  - cbn [run_pass] in Hr. cbn [intro_all] in Hi.
    destruct (intro D s) as [Da|] eqn:Es; [|discriminate].
    destruct (step st s) as [[sa oa]|] eqn:Ea; [|discriminate].
    destruct (run_pass step sa r) as [[sb ob]|] eqn:Eb; [|discriminate].
    inversion Hr; subst st1 out.
    destruct (Hstep _ _ _ _ _ _ _ HI Hone Es Ea) as [Ka [A1 [A2 [A3 [A4 A5]]]]].
    pose proof (intro_mono _ _ _ Es) as [M1 M2].
    destruct (IH _ _ _ _ _ _ A2 (M1 _ Hone) Hi Eb) as [Kb [B1 [B2 [B3 [B4 B5]]]]].
    exists Kb. split; [rewrite intro_all_app, A1; auto|]. split; [auto|]. split; [|split].
    + intros w Hw v Hv. rewrite B3; auto.
    + intros w Hw Hs. apply sat_app in Hs. destruct Hs as [Hs1 Hs2]. constructor; [|apply B4; auto].
      apply sat_stmt_ext with (w := lift sa w); [|apply A4; auto].
      intros v Hv. symmetry. apply B3; auto.
    + intros w Hw Hc Hs Hf. inversion Hs; subst. inversion Hf; subst.
      destruct (A5 w Hw Hc) as [C1 [C2 [C3 C4]]]; auto.
      destruct (B5 w Hw C1) as [D1' [D2 [D3 D4]]]; auto.
      split; [auto|]. split; [apply sat_app; auto|]. split; [apply Forall_app; auto|].
      intros Hk. rewrite logs_app, C4, D4 by auto. rewrite <- (logs_app w [s] r). reflexivity.
Qed.
End Pass.

(** ** Redefinition *)
Lemma vmem_In : forall v l, vmem v l = true <-> In v l.
Proof. exact mem_In. Qed.

Lemma aget_app : forall B k (a b : list (Z * B)), aget k (a ++ b) = match aget k a with Some x => Some x | None => aget k b end.
Proof.
  induction a as [|[k' x] r IH]; intros b; simpl; auto. destruct (k =? k'); auto.
Qed.
Lemma aget_In : forall B k (m : list (Z * B)) x, aget k m = Some x -> In (k, x) m.
Proof.
  induction m as [|[k' y] r IH]; intros x H; simpl in *; [discriminate|].
  destruct (Z.eqb_spec k k'); [left; congruence|right; auto].
Qed.
Lemma aget_None : forall B k (m : list (Z * B)), aget k m = None <-> ~ In k (map fst m).
Proof.
  induction m as [|[k' y] r IH]; simpl; [tauto|].
  destruct (Z.eqb_spec k k').
  - split; [discriminate|]. intros H; exfalso; apply H; auto.
  - rewrite IH. split; [intros H [E|E]; [congruence|auto]|tauto].
Qed.

Definition rlift (m : list (var * lincomb)) (w : env) : env :=
  fun v => match aget v m with Some l => eval_lin w l | None => w v end.
Definition rcons (m : list (var * lincomb)) (w : env) : Prop := forall v l, aget v m = Some l -> w v = eval_lin w l.

Lemma redef_lin_eval : forall m w l, eval_lin w (redef_lin m l) = eval_lin (rlift m w) l.
Proof.
  intros m w l. unfold redef_lin.
  match goal with |- context[existsb ?f l] => destruct (existsb f l) eqn:E end.
  - clear E. induction l as [|[v c] r IH]; simpl; auto. rewrite eval_lin_app, IH. f_equal.
    unfold rlift. destruct (aget v m); [rewrite eval_lc_scale; auto|simpl; ring].
  - apply eval_lin_ext. intros v Hv. apply in_map_iff in Hv. destruct Hv as [[u c] [<- Hin]].
    unfold rlift. simpl. destruct (aget u m) eqn:Eg; auto.
    exfalso. rewrite <- not_true_iff_false in E. apply E. apply existsb_exists. exists (u, c). split; [auto|]. simpl. rewrite Eg; auto.
Qed.
Lemma redef_quad_eval : forall m w q, eval_quad w (redef_quad m q) = eval_quad (rlift m w) q.
Proof. intros m w [a b]. unfold eval_quad, redef_quad; simpl. rewrite !redef_lin_eval. reflexivity. Qed.

Lemma rlift_cons : forall m w v, rcons m w -> rlift m w v = w v.
Proof. intros m w v H. unfold rlift. destruct (aget v m) eqn:E; auto. symmetry; apply H; auto. Qed.
Lemma redef_lin_cons : forall m w l, rcons m w -> eval_lin w (redef_lin m l) = eval_lin w l.
Proof. intros. rewrite redef_lin_eval. apply eval_lin_ext. intros; apply rlift_cons; auto. Qed.
Lemma redef_quad_cons : forall m w l, rcons m w -> eval_quad w (redef_quad m l) = eval_quad w l.
Proof. intros. rewrite redef_quad_eval. apply eval_quad_ext. intros; apply rlift_cons; auto. Qed.

(** D: variables introduced by the original statements; K: those introduced by the kept statements. *)
Record RInv (st : rstate) (D K : list var) : Prop := {
  ri_one : In vone K;
  ri_K_D : incl K D;
  ri_K_ign : forall v, In v K -> In v (rign st);
  ri_K_sub : forall v, In v K -> aget v (rsub st) = None;
  ri_D : forall v, In v D -> In v K \/ aget v (rsub st) <> None;
  ri_dom : forall v, aget v (rsub st) <> None -> In v D;
  ri_range : forall v l, aget v (rsub st) = Some l -> incl (lc_vars l) K;
  ri_out : forall v, aget v (rsub st) <> None -> In v (rign st) -> False
}.

Lemma redef_lin_vars : forall st D K l, RInv st D K -> incl (lc_vars l) D -> incl (lc_vars (redef_lin (rsub st) l)) K.
Proof.
  intros st D K l HI Hl. unfold redef_lin. match goal with |- context[existsb ?f l] => destruct (existsb f l) eqn:E end.
  - clear E. intros v Hv. apply in_map_iff in Hv. destruct Hv as [[u c] [<- Hin]].
    apply in_flat_map in Hin. destruct Hin as [[x k] [Hx Hin]]. simpl in Hin.
    assert (HxD : In x D) by (apply Hl; change x with (fst (x, k)); apply in_map; auto).
    destruct (aget x (rsub st)) as [l'|] eqn:Eg.
    + eapply ri_range; eauto. rewrite <- (lc_scale_vars k). change (fst (u, c)) with (fst (u, c)). apply in_map; auto.
    + destruct Hin as [Hin|[]]. inversion Hin; subst. simpl.
      destruct (ri_D _ _ _ HI _ HxD); [auto|congruence].
  - intros v Hv. apply in_map_iff in Hv. destruct Hv as [[u c] [<- Hin]]. simpl.
    assert (HxD : In u D) by (apply Hl; change u with (fst (u, c)); apply in_map; auto).
    destruct (ri_D _ _ _ HI _ HxD) as [|Hc]; [auto|]. exfalso.
    rewrite <- not_true_iff_false in E. apply E. apply existsb_exists. exists (u, c). split; auto.
    simpl. destruct (aget u (rsub st)); congruence.
Qed.
Lemma redef_quad_vars : forall st D K q, RInv st D K -> incl (q_vars q) D -> incl (q_vars (redef_quad (rsub st) q)) K.
Proof.
  intros st D K [a b] HI Hl. unfold q_vars in *; simpl in *.
  apply incl_app; eapply redef_lin_vars; eauto; intros v Hv; apply Hl, in_or_app; auto.
Qed.

Lemma redef_input_spec : forall m q, 
  (forall w, w vone = f1 ->
   match redef_input m q with inl k => k | inr q' => eval_quad w q' end = eval_quad (rlift m w) q) /\
  (forall K, In vone K -> incl (q_vars (redef_quad m q)) K ->
   match redef_input m q with inl k => True | inr q' => incl (q_vars q') K end).
Proof.
  intros m q. unfold redef_input. split.
  - intros w Hw. rewrite <- redef_quad_eval, <- q_canon_eval.
    destruct (q_try_linear (q_canon (redef_quad m q))) as [l|] eqn:E; [|reflexivity].
    rewrite (q_try_linear_spec w _ l Hw E).
    destruct (lc_try_constant l) as [k|] eqn:Ek.
    + symmetry; apply lc_try_constant_spec; auto.
    + apply eval_q_of_lc; auto.
  - intros K H1 HK. assert (Hc : incl (q_vars (q_canon (redef_quad m q))) K) by (eapply incl_tran; [apply q_canon_vars|auto]).
    destruct (q_try_linear (q_canon (redef_quad m q))) as [l|] eqn:E; [|auto].
    destruct (lc_try_constant l); auto. unfold q_vars; simpl.
    intros v [<-|Hv]; auto. apply Hc. eapply q_try_linear_vars; eauto.
Qed.

Lemma all_consts_spec : forall l ks, all_consts l = Some ks -> l = map inl ks.
Proof.
  induction l as [|i r IH]; intros ks H; simpl in H; [inversion H; auto|].
  destruct i as [k|q]; [|discriminate]. destruct (all_consts r) as [ks'|]; [|discriminate].
  inversion H; subst. simpl. f_equal; auto.
Qed.

Lemma subset_incl : forall a d, subset a d = true <-> incl a d.
Proof. exact subset_spec. Qed.

Lemma aget_combine_rev : forall B (outs : list var) (res : list B) v, length res = length outs -> NoDup outs ->
  (In v outs -> exists x, aget v (rev (combine outs res)) = Some x /\ In (v, x) (combine outs res)) /\
  (~ In v outs -> aget v (rev (combine outs res)) = None).
Proof.
  intros B outs res v Hl Hnd.
  assert (Hdom : forall (outs' : list var) (res' : list B), length res' = length outs' -> map fst (combine outs' res') = outs').
  { induction outs' as [|o r IH]; intros [|x xs] H; simpl in *; try discriminate; auto. f_equal; auto. }
  split.
  - intros Hin. destruct (aget v (rev (combine outs res))) as [x|] eqn:E.
    + exists x; split; auto. apply aget_In in E. apply in_rev; auto.
    + exfalso. apply aget_None in E. apply E. rewrite map_rev, Hdom by auto. apply in_rev. rewrite rev_involutive; auto.
  - intros Hn. apply aget_None. rewrite map_rev, Hdom by auto. rewrite <- in_rev. auto.
Qed.

Lemma intro_directive_inv : forall D outs s ins D1, intro D (Directive outs s ins) = Some D1 ->
  incl (flat_map q_vars ins) D /\ NoDup outs /\ (forall o, In o outs -> ~ In o D /\ is_output o = false) /\
  length ins = fst (solver_sig s) /\ length outs = snd (solver_sig s) /\ D1 = outs ++ D.
Proof.
  intros D outs s ins D1 H. cbn [intro] in H.
  destruct (subset _ D && nodupb outs && _ && _ && _) eqn:Ec; [|discriminate]. inversion H; subst.
  rewrite !andb_true_iff in Ec. destruct Ec as [[[[Ec1 Ec2] Ec3] Ec4] Ec5].
  split; [apply subset_spec; auto|]. split; [apply nodupb_spec; auto|].
  split; [|split; [apply Nat.eqb_eq; auto|split; [apply Nat.eqb_eq; auto|auto]]].
  intros o Ho. rewrite forallb_forall in Ec3. specialize (Ec3 o Ho). apply andb_prop in Ec3.
  destruct Ec3 as [E1 E2]. split.
  - intros Hc; apply mem_In in Hc; rewrite Hc in E1; discriminate.
  - destruct (is_output o); [discriminate|auto].
Qed.

Lemma intro_directive_mk : forall D outs s ins, incl (flat_map q_vars ins) D -> NoDup outs ->
  (forall o, In o outs -> ~ In o D /\ is_output o = false) ->
  length ins = fst (solver_sig s) -> length outs = snd (solver_sig s) ->
  intro D (Directive outs s ins) = Some (outs ++ D).
Proof.
  intros D outs s ins H1 H2 H3 H4 H5. cbn [intro].
  replace (subset (flat_map q_vars ins) D) with true by (symmetry; apply subset_spec; auto).
  replace (nodupb outs) with true by (symmetry; apply nodupb_spec; auto).
  replace (forallb (fun o => negb (mem o D) && negb (is_output o)) outs) with true.
  - rewrite H4, H5, !Nat.eqb_refl. reflexivity.
  - symmetry. apply forallb_forall. intros o Ho. destruct (H3 o Ho) as [E1 E2]. rewrite E2.
    destruct (mem o D) eqn:E; [apply mem_In in E; contradiction|reflexivity].
Qed.

Lemma lc_div_one : forall l l', lc_div l f1 = Some l' -> l' = lc_scale (finv f1) l.
Proof. unfold lc_div; intros l l'. destruct (Feqb f1 f0); congruence. Qed.

(** Variables not yet introduced are not ignored, unless they are outputs. *)
Definition RInv' st D K := RInv st D K /\ (forall v, In v (rign st) -> In v D \/ is_output v = true).

Lemma redef_step_ok : step_ok rstate (redef_step solve false) RInv'
  (fun st => rlift (rsub st)) (fun st => rcons (rsub st)) True.
Proof.
  intros st s D K D1 st1 out [HI HI2] Hone Hi Hst.
  pose proof (ri_one _ _ _ HI) as HoneK.
  destruct s as [q l err|outs s ins|fmt es].
  - (* constraint *)
    cbn [intro] in Hi. destruct (subset (q_vars q) D) eqn:Eq; [|discriminate]. apply subset_spec in Eq.
    pose proof (redef_quad_vars _ _ _ _ HI Eq) as HqK.
    cbn [redef_step] in Hst.
    destruct (subset (lc_vars l) D) eqn:El.
    + (* all variables known: the constraint is kept *)
      apply subset_spec in El. inversion Hi; subst D1.
      pose proof (redef_lin_vars _ _ _ _ HI El) as HlK.
      assert (Hkeep : Some (st1, out) = Some (st, [Constraint (redef_quad (rsub st) q) (redef_lin (rsub st) l) err])).
      { destruct (redef_lin (rsub st) l) as [|[v0 c0] r0] eqn:E0; [auto|].
        assert (Hv0 : vmem v0 (rign st) = true) by (apply vmem_In; eapply ri_K_ign; eauto; apply HlK; left; auto).
        rewrite Hv0 in Hst. simpl in Hst. auto. }
      inversion Hkeep; subst st1 out. clear Hst Hkeep.
      exists K. split.
      { cbn [intro_all intro]. rewrite (proj2 (subset_spec _ _) HqK), (proj2 (subset_spec _ _) HlK). auto. }
      split; [split; auto|]. split; [auto|]. split.
      * intros w Hw Hs. inversion Hs; subst. simpl in *. rewrite redef_quad_eval, redef_lin_eval in H1. auto.
      * intros w Hw Hc Hs Hf. split; [auto|]. split; [|split; [repeat constructor|auto]].
        constructor; [|constructor]. simpl in *. rewrite redef_quad_cons, redef_lin_cons; auto.
    + (* definition of a new variable *)
      destruct l as [|[v c] [|]]; try discriminate. destruct (Feqb_spec c f1) as [->|]; [|discriminate].
      inversion Hi; subst D1. clear Hi.
      assert (HvD : ~ In v D).
      { intros Hc. assert (subset (lc_vars [(v, f1)]) D = true); [|congruence].
        apply subset_spec. intros u [<-|[]]; auto. }
      assert (Hsub : aget v (rsub st) = None).
      { destruct (aget v (rsub st)) eqn:E; auto. exfalso. apply HvD, (ri_dom _ _ _ HI). congruence. }
      assert (Hrl : redef_lin (rsub st) [(v, f1)] = [(v, f1)]).
      { unfold redef_lin. simpl. rewrite Hsub. reflexivity. }
      rewrite Hrl in Hst. rewrite Hsub in Hst.
      assert (HvK : ~ In v K) by (intros Hc; apply HvD, (ri_K_D _ _ _ HI); auto).
      assert (Hintro : forall e, intro_all K [Constraint (redef_quad (rsub st) q) [(v, f1)] e] = Some (v :: K)).
      { intros e. cbn [intro_all intro]. rewrite (proj2 (subset_spec _ _) HqK).
        destruct (subset (lc_vars [(v, f1)]) K) eqn:E; [|rewrite Feqb_refl; auto].
        exfalso. apply HvK. apply subset_spec in E. apply E. left; auto. }
      assert (HInv1 : forall g, (forall u, In u (rign st) -> In u g) -> In v g ->
                 (forall u, In u g -> In u (v :: rign st)) -> RInv' (mkR (rsub st) g) (v :: D) (v :: K)).
      { intros g Hg Hvg Hg2. split.
        - constructor; simpl.
          + right; auto.
          + intros u [<-|Hu]; [left; auto|right; apply (ri_K_D _ _ _ HI); auto].
          + intros u [<-|Hu]; [auto|]. apply Hg, (ri_K_ign _ _ _ HI); auto.
          + intros u [<-|Hu]; [auto|]. apply (ri_K_sub _ _ _ HI); auto.
          + intros u [<-|Hu]; [left; left; auto|]. destruct (ri_D _ _ _ HI u Hu); auto.
          + intros u Hu. right. apply (ri_dom _ _ _ HI); auto.
          + intros u l Hu. apply incl_tl. eapply (ri_range _ _ _ HI); eauto.
          + intros u Hu Hg'. apply Hg2 in Hg'. destruct Hg' as [<-|Hg']; [congruence|]. eapply (ri_out _ _ _ HI); eauto.
        - simpl. intros u Hu. apply Hg2 in Hu. destruct Hu as [<-|Hu]; [left; left; auto|].
          destruct (HI2 u Hu); [left; right; auto|auto]. }
      assert (Hsem : forall e, (forall w, w vone = f1 -> sat w [Constraint (redef_quad (rsub st) q) [(v, f1)] e] ->
                         sat_stmt (rlift (rsub st) w) (Constraint q [(v, f1)] err)) /\
                       (forall w, w vone = f1 -> rcons (rsub st) w -> sat_stmt w (Constraint q [(v, f1)] err) ->
                         sat w [Constraint (redef_quad (rsub st) q) [(v, f1)] e])).
      { intros e. split.
        - intros w Hw Hs. inversion Hs as [|? ? H1 _]; subst. simpl in *. rewrite redef_quad_eval in H1. rewrite H1.
          unfold rlift. rewrite Hsub. reflexivity.
        - intros w Hw Hc Hs. constructor; [|constructor]. simpl in *. rewrite redef_quad_cons; auto. }
      destruct (vmem v (rign st)) eqn:Ev; simpl in Hst.
      * (* an ignored variable: kept *)
        inversion Hst; subst st1 out. clear Hst. exists (v :: K). split; [apply Hintro|].
        split. { destruct st as [sb ig]; simpl in *. apply HInv1; auto using in_cons. apply vmem_In; auto. }
        split; [auto|]. split; [apply Hsem|].
        intros w Hw Hc Hs Hf. split; [auto|]. split; [apply Hsem; auto|]. split; [repeat constructor|auto].
      * assert (Hsum : lc_coeff_sum [(v, f1)] = f1) by (unfold lc_coeff_sum; simpl; ring).
        unfold lc_try_summand in Hst. cbn [forallb fst] in Hst. rewrite Z.eqb_refl in Hst. cbn [andb] in Hst.
        rewrite Hsum in Hst.
        destruct (q_try_linear (redef_quad (rsub st) q)) as [lin|] eqn:Elin.
        -- (* linear: substituted *)
           destruct (lc_div lin f1) as [lin'|] eqn:Ed; [|discriminate]. inversion Hst; subst st1 out. clear Hst.
           assert (Hlv : incl (lc_vars (lc_canon lin')) K).
           { eapply incl_tran; [apply lc_canon_vars|]. rewrite (lc_div_one _ _ Ed), lc_scale_vars.
             eapply incl_tran; [eapply q_try_linear_vars; eauto|auto]. }
           assert (Hval : forall w, w vone = f1 -> eval_lin w (lc_canon lin') = eval_quad w (redef_quad (rsub st) q)).
           { intros w Hw. rewrite lc_canon_eval, (q_try_linear_spec w _ lin Hw Elin).
             destruct (lc_div_spec w _ _ _ Ed) as [_ E]. rewrite <- E. ring. }
           assert (Hsame : forall w u, In u D -> rlift ((v, lc_canon lin') :: rsub st) w u = rlift (rsub st) w u).
           { intros w u Hu. unfold rlift; simpl. destruct (Z.eqb_spec u v); [subst; contradiction|auto]. }
           exists K. split; [reflexivity|]. split; [split|].
           ++ constructor; simpl.
              ** auto.
              ** intros u Hu. right. apply (ri_K_D _ _ _ HI); auto.
              ** apply (ri_K_ign _ _ _ HI).
              ** intros u Hu. destruct (Z.eqb_spec u v); [subst; contradiction|apply (ri_K_sub _ _ _ HI); auto].
              ** intros u [<-|Hu]; [right; rewrite Z.eqb_refl; discriminate|].
                 destruct (ri_D _ _ _ HI u Hu); [auto|right]. destruct (u =? v); [discriminate|auto].
              ** intros u Hu. destruct (Z.eqb_spec u v); [left; auto|right; apply (ri_dom _ _ _ HI); auto].
              ** intros u l' Hu. destruct (Z.eqb_spec u v); [inversion Hu; subst; auto|eapply (ri_range _ _ _ HI); eauto].
              ** intros u Hu Hg. destruct (Z.eqb_spec u v); [subst|eapply (ri_out _ _ _ HI); eauto].
                 apply vmem_In in Hg. congruence.
           ++ simpl. intros u Hu. destruct (HI2 u Hu); [left; right; auto|auto].
           ++ simpl. split; [intros w _ u Hu; apply Hsame; auto|]. split.
              ** intros w Hw _. cbn [sat_stmt].
                 rewrite (eval_quad_ext _ (rlift (rsub st) w)) by (intros u Hu; apply Hsame; apply Eq; auto).
                 rewrite <- redef_quad_eval. simpl. unfold rlift; simpl. rewrite Z.eqb_refl, Hval by auto. ring.
              ** intros w Hw Hc Hs Hf. split; [|repeat split; try constructor].
                 intros u l' Hu. simpl in Hu. destruct (Z.eqb_spec u v) as [->|]; [|apply Hc; auto].
                 inversion Hu; subst l'. rewrite Hval by auto. rewrite redef_quad_cons by auto.
                 simpl in Hs. rewrite Hs. ring.
        -- (* quadratic: kept, ignored from now on *)
           inversion Hst; subst st1 out. clear Hst. exists (v :: K). split; [apply Hintro|].
           split. { apply HInv1; simpl; auto. }
           split; [auto|]. split; [apply Hsem|].
           intros w Hw Hc Hs Hf. split; [auto|]. split; [apply Hsem; auto|]. split; [repeat constructor|auto].
  - (* directive *)
    apply intro_directive_inv in Hi. destruct Hi as [Hins [Hnd [Hout [Hl1 [Hl2 ->]]]]].
    cbn [redef_step] in Hst.
    destruct (all_consts (map (redef_input (rsub st)) ins)) as [ks|] eqn:Ec.
    + destruct (solve s ks) as [res|] eqn:Es; [|discriminate].
      destruct (Nat.eqb_spec (length res) (length outs)) as [Hlen|]; [|discriminate].
      inversion Hst; subst st1 out. clear Hst.
      set (m' := rev (combine outs (map (fun x => lc_canon (lc_const x)) res))) in *.
      assert (Hlen' : length (map (fun x => lc_canon (lc_const x)) res) = length outs) by (rewrite map_length; auto).
      pose proof (fun v => aget_combine_rev _ outs (map (fun x => lc_canon (lc_const x)) res) v Hlen' Hnd) as Hget.
      fold m' in Hget.
      assert (Hm'v : forall v l', aget v m' = Some l' -> incl (lc_vars l') [vone] /\ In v outs).
      { intros v l' Hv. destruct (in_dec Z.eq_dec v outs) as [Hin|Hn].
        - split; [|auto]. destruct (proj1 (Hget v) Hin) as [x [Hx Hxin]]. rewrite Hv in Hx; inversion Hx; subst x.
          apply in_combine_r in Hxin. apply in_map_iff in Hxin. destruct Hxin as [x [<- _]].
          eapply incl_tran; [apply lc_canon_vars|]. unfold lc_const. rewrite lc_scale_vars. apply incl_refl.
        - rewrite (proj2 (Hget v) Hn) in Hv; discriminate. }
      assert (Hsame : forall w u, In u D -> rlift (m' ++ rsub st) w u = rlift (rsub st) w u).
      { intros w u Hu. unfold rlift. rewrite aget_app, (proj2 (Hget u)); auto.
        intros Hc. apply (Hout u Hc); auto. }
      exists K. split; [reflexivity|].
      split; [split|].
      * constructor; simpl.
        -- auto.
        -- intros u Hu. apply in_or_app; right. apply (ri_K_D _ _ _ HI); auto.
        -- apply (ri_K_ign _ _ _ HI).
        -- intros u Hu. rewrite aget_app, (proj2 (Hget u)); [apply (ri_K_sub _ _ _ HI); auto|].
           intros Hc. apply (Hout u Hc). apply (ri_K_D _ _ _ HI); auto.
        -- intros u Hu. rewrite aget_app. apply in_app_or in Hu. destruct Hu as [Hu|Hu].
           ++ right. destruct (proj1 (Hget u) Hu) as [x [-> _]]. discriminate.
           ++ destruct (ri_D _ _ _ HI u Hu); [auto|right]. destruct (aget u m'); [discriminate|auto].
        -- intros u Hu. apply in_or_app. rewrite aget_app in Hu.
           destruct (aget u m') eqn:E; [left; eapply Hm'v; eauto|right; apply (ri_dom _ _ _ HI); auto].
        -- intros u l' Hu. rewrite aget_app in Hu. destruct (aget u m') eqn:E.
           ++ inversion Hu; subst. destruct (Hm'v _ _ E) as [Hv _]. intros x Hx. apply Hv in Hx.
              destruct Hx as [<-|[]]; auto.
           ++ eapply (ri_range _ _ _ HI); eauto.
        -- intros u Hu Hg. rewrite aget_app in Hu. destruct (aget u m') eqn:E; [|eapply (ri_out _ _ _ HI); eauto].
           destruct (Hm'v _ _ E) as [_ Hin]. destruct (Hout u Hin) as [H1 H2]. destruct (HI2 u Hg); [auto|congruence].
      * simpl. intros u Hu. destruct (HI2 u Hu); [left; apply in_or_app; auto|auto].
      * simpl. split; [intros w _ u Hu; apply Hsame; auto|]. split; [constructor|].
        intros w Hw Hc Hs Hf. split; [|repeat split; try constructor].
        apply all_consts_spec in Ec.
        assert (Hks : map (eval_quad w) ins = ks).
        { clear - Ec Hw Hc. revert ks Ec. induction ins as [|q r IH]; intros [|k ks] E; simpl in *; try discriminate; auto.
          inversion E as [[E1 E2]]. f_equal; [|apply IH; auto].
          pose proof (proj1 (redef_input_spec (rsub st) q) w Hw) as H. rewrite E1 in H. rewrite H.
          apply eval_quad_ext. intros; symmetry; apply rlift_cons; auto. }
        simpl in Hf. rewrite Hks, Es in Hf. inversion Hf; subst res.
        intros u l' Hu. rewrite aget_app in Hu. destruct (aget u m') as [l1|] eqn:E; [|apply Hc; auto].
        inversion Hu; subst l1. destruct (Hm'v _ _ E) as [_ Hin].
        destruct (proj1 (Hget u) Hin) as [x [Hx Hxin]]. rewrite E in Hx. inversion Hx; subst x.
        rewrite map_map in Hxin.
        assert (Hgen : forall (f : var -> lincomb) l x, In (u, x) (combine l (map f l)) -> x = f u).
        { clear. intros f l. induction l as [|a l IH]; simpl; intros x [].
          - inversion H; auto.
          - apply IH; auto. }
        apply Hgen in Hxin. subst l'. rewrite lc_canon_eval, eval_lc_const; auto.
    + (* kept directive *)
      inversion Hst; subst st1 out. clear Hst.
      set (ins2 := map (fun i => match i with inl k => q_of_lc (lc_summand k vone) | inr q => q end)
                       (map (redef_input (rsub st)) ins)).
      assert (Hv2 : incl (flat_map q_vars ins2) K).
      { intros v Hv. apply in_flat_map in Hv. destruct Hv as [q2 [Hq2 Hv]].
        unfold ins2 in Hq2. rewrite map_map in Hq2. apply in_map_iff in Hq2. destruct Hq2 as [q [<- Hq]].
        assert (HqD : incl (q_vars q) D) by (intros u Hu; apply Hins; apply in_flat_map; eauto).
        pose proof (proj2 (redef_input_spec (rsub st) q) K HoneK (redef_quad_vars _ _ _ _ HI HqD)) as H.
        destruct (redef_input (rsub st) q); [|apply H; auto].
        unfold q_vars in Hv; simpl in Hv. destruct Hv as [<-|[<-|[]]]; auto. }
      exists (outs ++ K). split.
      { cbn [intro_all]. rewrite intro_directive_mk; auto.
        - intros o Ho. destruct (Hout o Ho). split; auto. intros Hc; apply H, (ri_K_D _ _ _ HI); auto.
        - unfold ins2. rewrite !map_length. auto. }
      split; [split|].
      * constructor; simpl.
        -- apply in_or_app; auto.
        -- intros u Hu. apply in_app_or in Hu. apply in_or_app. destruct Hu; [auto|right; apply (ri_K_D _ _ _ HI); auto].
        -- intros u Hu. apply in_app_or in Hu. apply in_or_app. destruct Hu; [auto|right; apply (ri_K_ign _ _ _ HI); auto].
        -- intros u Hu. apply in_app_or in Hu. destruct Hu as [Hu|Hu]; [|apply (ri_K_sub _ _ _ HI); auto].
           destruct (aget u (rsub st)) eqn:E; auto. exfalso. apply (Hout u Hu). apply (ri_dom _ _ _ HI). congruence.
        -- intros u Hu. apply in_app_or in Hu. destruct Hu as [Hu|Hu]; [left; apply in_or_app; auto|].
           destruct (ri_D _ _ _ HI u Hu); [left; apply in_or_app; auto|auto].
        -- intros u Hu. apply in_or_app; right; apply (ri_dom _ _ _ HI); auto.
        -- intros u l Hu. apply incl_appr. eapply (ri_range _ _ _ HI); eauto.
        -- intros u Hu Hg. apply in_app_or in Hg. destruct Hg as [Hg|Hg]; [|eapply (ri_out _ _ _ HI); eauto].
           apply (Hout u Hg). apply (ri_dom _ _ _ HI); auto.
      * simpl. intros u Hu. apply in_app_or in Hu. destruct Hu as [Hu|Hu]; [left; apply in_or_app; auto|].
        destruct (HI2 u Hu); [left; apply in_or_app; auto|auto].
      * simpl. split; [auto|]. split; [constructor|].
        intros w Hw Hc Hs Hf. split; [auto|]. split; [repeat constructor|]. split; [|auto].
        constructor; [|constructor]. simpl in *. rewrite <- Hf. f_equal. unfold ins2. rewrite !map_map.
        apply map_ext. intros q.
        pose proof (proj1 (redef_input_spec (rsub st) q) w Hw) as H.
        rewrite (eval_quad_ext (rlift (rsub st) w) w) in H by (intros; apply rlift_cons; auto).
        rewrite <- H. destruct (redef_input (rsub st) q) as [k|q']; auto.
        rewrite eval_q_of_lc by auto. simpl. rewrite Hw. ring.
  - (* log *)
    cbn [intro] in Hi. destruct (subset _ D) eqn:E; [|discriminate]. inversion Hi; subst D1. apply subset_spec in E.
    simpl in Hst. inversion Hst; subst st1 out. exists K. split.
    { cbn [intro_all intro]. replace (subset (flat_map lc_vars (map (redef_lin (rsub st)) es)) K) with true; auto.
      symmetry. apply subset_spec. intros v Hv. apply in_flat_map in Hv. destruct Hv as [l [Hl Hv]].
      apply in_map_iff in Hl. destruct Hl as [l0 [<- Hl]]. eapply redef_lin_vars; eauto.
      intros u Hu. apply E, in_flat_map; eauto. }
    split; [split; auto|]. split; [auto|]. split; [simpl; auto|].
    intros w Hw Hc _ _. split; [auto|]. split; [repeat constructor|]. split; [repeat constructor|].
    intros _. simpl. rewrite map_map. rewrite (map_ext _ (eval_lin w)); [reflexivity|]. intros l. apply redef_lin_cons; auto.
Qed.

(** ** Stateless passes: tautologies, canonicalisation *)
Definition UInv (st : unit) (D K : list var) : Prop := D = K.

Lemma intro_constraint_weaken : forall D q l err q' err' D1, intro D (Constraint q l err) = Some D1 ->
  incl (q_vars q') D -> intro D (Constraint q' l err') = Some D1.
Proof.
  intros D q l err q' err' D1 H Hq. cbn [intro] in *. rewrite (proj2 (subset_spec _ _) Hq).
  destruct (subset (q_vars q) D); [|discriminate]. exact H.
Qed.

Lemma intro_constraint_q : forall D q l err D1, intro D (Constraint q l err) = Some D1 -> incl (q_vars q) D.
Proof.
  intros D q l err D1 H. cbn [intro] in H. destruct (subset (q_vars q) D) eqn:E; [|discriminate]. apply subset_spec; auto.
Qed.

Lemma taut_step_ok : step_ok unit taut_step UInv (fun _ w => w) (fun _ _ => True) True.
Proof.
  intros [] s D K D1 st1 out HI Hone Hi Hst. unfold UInv in HI. subst K.
  destruct s as [q l err|outs s ins|fmt es]; cbn [taut_step] in Hst.
  - pose proof (intro_constraint_q _ _ _ _ _ Hi) as Hq.
    destruct (q_try_linear q) as [l'|] eqn:E.
    + pose proof (q_try_linear_vars _ _ E) as Hv.
      destruct (lc_eqb l' l) eqn:El.
      * apply lc_eqb_eq in El. subst l'. inversion Hst; subst. exists D. split; [reflexivity|].
        assert (D1 = D).
        { cbn [intro] in Hi. rewrite (proj2 (subset_spec _ _) Hq) in Hi.
          rewrite (proj2 (subset_spec (lc_vars l) D)) in Hi by (eapply incl_tran; eauto). congruence. }
        subst D1. split; [reflexivity|]. split; [auto|]. split.
        -- intros w Hw _. simpl. apply q_try_linear_spec; auto.
        -- intros w Hw _ _ _. repeat split; constructor.
      * inversion Hst; subst. exists D1. split.
        { cbn [intro_all]. rewrite (intro_constraint_weaken _ _ _ _ (q_of_lc l') err _ Hi); [auto|].
          unfold q_vars; simpl. intros v [<-|Hv']; auto. }
        split; [reflexivity|]. split; [auto|]. split.
        -- intros w Hw Hs. inversion Hs; subst. simpl in *. rewrite eval_q_of_lc in H1 by auto.
           rewrite (q_try_linear_spec w q l') by auto. auto.
        -- intros w Hw _ Hs _. repeat split; try constructor; try constructor. simpl in *.
           rewrite eval_q_of_lc by auto. rewrite <- (q_try_linear_spec w q l'); auto.
    + inversion Hst; subst. exists D1. split; [cbn [intro_all]; rewrite Hi; auto|]. split; [reflexivity|]. split; [auto|].
      split; [intros w Hw Hs; inversion Hs; auto|]. intros w Hw _ Hs Hf. repeat split; repeat constructor; auto.
  - inversion Hst; subst. exists D1. split; [cbn [intro_all]; rewrite Hi; auto|]. split; [reflexivity|]. split; [auto|].
    split; [intros w Hw Hs; simpl; auto|]. intros w Hw _ Hs Hf. repeat split; repeat constructor; auto.
  - inversion Hst; subst. exists D1. split; [cbn [intro_all]; rewrite Hi; auto|]. split; [reflexivity|]. split; [auto|].
    split; [intros w Hw Hs; simpl; auto|]. intros w Hw _ Hs Hf. repeat split; repeat constructor; auto.
Qed.

Lemma canon_single : forall v, lc_canon [(v, f1)] = [(v, f1)].
Proof.
  intros v. unfold lc_canon. simpl. destruct (Feqb_spec f1 f0) as [E|]; [exfalso; apply F_1_neq_0; auto|reflexivity].
Qed.

Lemma canon_step_ok : step_ok unit canon_pass_step UInv (fun _ w => w) (fun _ _ => True) True.
Proof.
  intros [] s D K D1 st1 out HI Hone Hi Hst. unfold UInv in HI. subst K.
  unfold canon_pass_step in Hst. inversion Hst; subst. exists D1.
  assert (Hc : intro_all D [canon_stmt s] = Some D1).
  { cbn [intro_all]. replace (intro D (canon_stmt s)) with (Some D1); auto. symmetry.
    destruct s as [q l err|outs s ins|fmt es]; cbn [canon_stmt].
    - cbn [intro] in *. destruct (subset (q_vars q) D) eqn:Eq; [|discriminate]. apply subset_spec in Eq.
      rewrite (proj2 (subset_spec (q_vars (q_canon q)) D)) by (eapply incl_tran; [apply q_canon_vars|auto]).
      destruct (subset (lc_vars l) D) eqn:El.
      + apply subset_spec in El. rewrite (proj2 (subset_spec (lc_vars (lc_canon l)) D)); [auto|].
        eapply incl_tran; [apply lc_canon_vars|auto].
      + destruct l as [|[v c] [|]]; try discriminate. destruct (Feqb_spec c f1) as [->|]; [|discriminate].
        rewrite canon_single, El, Feqb_refl. auto.
    - apply intro_directive_inv in Hi. destruct Hi as [Hins [Hnd [Hout [Hl1 [Hl2 ->]]]]].
      apply intro_directive_mk; auto; [|rewrite map_length; auto].
      intros v Hv. apply in_flat_map in Hv. destruct Hv as [q [Hq Hv]]. apply in_map_iff in Hq.
      destruct Hq as [q0 [<- Hq]]. apply Hins, in_flat_map. exists q0. split; auto. apply q_canon_vars; auto.
    - cbn [intro] in *. destruct (subset _ D) eqn:E; [|discriminate]. apply subset_spec in E. inversion Hi; subst.
      replace (subset (flat_map lc_vars (map lc_canon es)) D1) with true; auto. symmetry. apply subset_spec.
      intros v Hv. apply in_flat_map in Hv. destruct Hv as [l [Hl Hv]]. apply in_map_iff in Hl.
      destruct Hl as [l0 [<- Hl]]. apply E, in_flat_map. exists l0. split; auto. apply lc_canon_vars; auto. }
  split; [auto|]. split; [reflexivity|]. split; [auto|]. split.
  - intros w Hw Hs. inversion Hs as [|? ? H1 _]; subst. destruct s; simpl in *; auto.
    rewrite q_canon_eval, lc_canon_eval in H1; auto.
  - intros w Hw _ Hs Hf. split; [auto|]. split; [|split].
    + constructor; [|constructor]. destruct s; simpl in *; auto. rewrite q_canon_eval, lc_canon_eval; auto.
    + constructor; [|constructor]. destruct s; simpl in *; auto. rewrite <- Hf. f_equal. rewrite map_map.
      apply map_ext. intros; apply q_canon_eval.
    + intros _. destruct s; simpl; auto. rewrite map_map. rewrite (map_ext _ (eval_lin w)); [reflexivity|].
      intros; apply lc_canon_eval.
Qed.

(** ** Directives *)
Definition dlift (m : list (var * var)) (w : env) : env := fun v => w (dir_var m v).

Lemma dir_lin_eval : forall m w l, eval_lin w (dir_lin m l) = eval_lin (dlift m w) l.
Proof. induction l as [|[v c] r IH]; simpl; auto. rewrite IH; auto. Qed.
Lemma dir_quad_eval : forall m w q, eval_quad w (dir_quad m q) = eval_quad (dlift m w) q.
Proof. intros m w [a b]. unfold eval_quad; simpl. rewrite !dir_lin_eval; auto. Qed.

Record DInv (st : dstate) (D K : list var) : Prop := {
  di_K_D : incl K D;
  di_one : In vone K;
  di_K : forall v, In v K -> aget v (dsub st) = None;
  di_D : forall v, In v D -> In (dir_var (dsub st) v) K;
  di_dom : forall v, aget v (dsub st) <> None -> In v D /\ is_output v = false;
  di_calls : forall c outs, call_get c (dcalls st) = Some outs -> incl outs K /\ length outs = snd (solver_sig (fst c))
}.
Definition dcons (st : dstate) (w : env) : Prop :=
  (forall v, dlift (dsub st) w v = w v) /\
  (forall s ins outs, call_get (s, ins) (dcalls st) = Some outs -> solve s (map (eval_quad w) ins) = Some (map w outs)).

Lemma dir_lin_vars : forall m l, lc_vars (dir_lin m l) = map (dir_var m) (lc_vars l).
Proof. intros. unfold lc_vars, dir_lin. rewrite !map_map. reflexivity. Qed.
Lemma dir_quad_vars : forall m q, q_vars (dir_quad m q) = map (dir_var m) (q_vars q).
Proof. intros m [a b]. unfold q_vars; simpl. rewrite !dir_lin_vars, map_app. reflexivity. Qed.

Lemma call_get_spec : forall c m outs, call_get c m = Some outs -> exists c', In (c', outs) m /\ c' = c.
Proof.
  induction m as [|[c' o] r IH]; simpl; intros outs H; [discriminate|].
  destruct (call_eqb c c') eqn:E.
  - inversion H; subst. exists c'. split; [auto|]. unfold call_eqb in E. apply andb_prop in E. destruct E as [E1 E2].
    apply solver_eqb_eq in E1. apply list_eqb_eq in E2; [|apply q_eqb_eq]. destruct c, c'; simpl in *; congruence.
  - destruct (IH _ H) as [c'' [H1 H2]]. eauto.
Qed.

Lemma dir_var_new : forall m outs outs0 v, length outs0 = length outs -> NoDup outs -> ~ In v outs ->
  dir_var (rev (combine outs outs0) ++ m) v = dir_var m v.
Proof.
  intros m outs outs0 v Hl Hnd Hn. unfold dir_var. rewrite aget_app.
  rewrite (proj2 (aget_combine_rev _ outs outs0 v Hl Hnd)); auto.
Qed.

Lemma dir_step_ok : step_ok dstate dir_step DInv (fun st => dlift (dsub st)) dcons True.
Proof.
  intros st s D K D1 st1 out HI Hone Hi Hst.
  assert (HqK : forall q, incl (q_vars q) D -> incl (q_vars (dir_quad (dsub st) q)) K).
  { intros q Hq v Hv. rewrite dir_quad_vars in Hv. apply in_map_iff in Hv. destruct Hv as [u [<- Hu]].
    apply (di_D _ _ _ HI); auto. }
  assert (HlK : forall l, incl (lc_vars l) D -> incl (lc_vars (dir_lin (dsub st) l)) K).
  { intros q Hq v Hv. rewrite dir_lin_vars in Hv. apply in_map_iff in Hv. destruct Hv as [u [<- Hu]].
    apply (di_D _ _ _ HI); auto. }
  assert (Hfix : forall v, ~ In v D -> dir_var (dsub st) v = v).
  { intros v Hv. unfold dir_var. destruct (aget v (dsub st)) eqn:E; auto. exfalso. apply Hv, (di_dom _ _ _ HI). congruence. }
  destruct s as [q l err|outs s ins|fmt es]; cbn [dir_step] in Hst.
  - inversion Hst; subst st1 out. clear Hst. pose proof (intro_constraint_q _ _ _ _ _ Hi) as Hq.
    assert (Hsem : (forall w, w vone = f1 -> sat w [Constraint (dir_quad (dsub st) q) (dir_lin (dsub st) l) err] ->
         sat_stmt (dlift (dsub st) w) (Constraint q l err)) /\
       (forall w, w vone = f1 -> dcons st w -> sat_stmt w (Constraint q l err) -> follows_stmt solve w (Constraint q l err) ->
         dcons st w /\ sat w [Constraint (dir_quad (dsub st) q) (dir_lin (dsub st) l) err] /\
         follows solve w [Constraint (dir_quad (dsub st) q) (dir_lin (dsub st) l) err] /\ (True -> @nil (Z * list F) = []))).
    { split.
      - intros w Hw Hs. inversion Hs as [|? ? H1 _]; subst. simpl in *. rewrite dir_quad_eval, dir_lin_eval in H1. auto.
      - intros w Hw [Hc1 Hc2] Hs _. split; [split; auto|]. split; [|repeat constructor].
        constructor; [|constructor]. simpl in *. rewrite dir_quad_eval, dir_lin_eval.
        rewrite (eval_quad_ext _ w), (eval_lin_ext _ w); auto. }
    cbn [intro] in Hi. rewrite (proj2 (subset_spec _ _) Hq) in Hi.
    destruct (subset (lc_vars l) D) eqn:El.
    + apply subset_spec in El. inversion Hi; subst D1. exists K. split.
      { cbn [intro_all intro]. rewrite (proj2 (subset_spec _ _) (HqK _ Hq)), (proj2 (subset_spec _ _) (HlK _ El)). auto. }
      split; [auto|]. split; [auto|]. exact Hsem.
    + destruct l as [|[v c] [|]]; try discriminate. destruct (Feqb_spec c f1) as [->|]; [|discriminate].
      inversion Hi; subst D1.
      assert (HvD : ~ In v D).
      { intros Hc. assert (subset (lc_vars [(v, f1)]) D = true); [|congruence].
        apply subset_spec. intros u [<-|[]]; auto. }
      assert (HvK : ~ In v K) by (intros Hc; apply HvD, (di_K_D _ _ _ HI); auto).
      assert (Ev : dir_lin (dsub st) [(v, f1)] = [(v, f1)]) by (simpl; rewrite Hfix; auto).
      exists (v :: K). split.
      { cbn [intro_all intro]. rewrite (proj2 (subset_spec _ _) (HqK _ Hq)), Ev.
        destruct (subset (lc_vars [(v, f1)]) K) eqn:E; [|rewrite Feqb_refl; auto].
        exfalso. apply HvK. apply subset_spec in E. apply E. left; auto. }
      split.
      { constructor.
        - intros u [<-|Hu]; [left; auto|right; apply (di_K_D _ _ _ HI); auto].
        - right; apply (di_one _ _ _ HI).
        - intros u [<-|Hu]; [|apply (di_K _ _ _ HI); auto].
          destruct (aget v (dsub st)) eqn:E; auto. exfalso; apply HvD, (di_dom _ _ _ HI). congruence.
        - intros u [<-|Hu]; [left; rewrite Hfix; auto|right; apply (di_D _ _ _ HI); auto].
        - intros u Hu. destruct (di_dom _ _ _ HI u Hu). split; [right; auto|auto].
        - intros c o Ho. destruct (di_calls _ _ _ HI c o Ho). split; [apply incl_tl; auto|auto]. }
      split; [auto|]. exact Hsem.
  - apply intro_directive_inv in Hi. destruct Hi as [Hins [Hnd [Hout [Hl1 [Hl2 ->]]]]].
    assert (Eouts : map (dir_var (dsub st)) outs = outs).
    { clear - Hout Hfix. induction outs as [|o r IH]; simpl; auto. rewrite IH, Hfix; auto.
      - apply Hout; left; auto.
      - intros u Hu; apply Hout; right; auto. }
    rewrite Eouts in Hst.
    set (ins' := map (dir_quad (dsub st)) ins) in *.
    assert (HinsK : incl (flat_map q_vars ins') K).
    { intros v Hv. apply in_flat_map in Hv. destruct Hv as [q [Hq Hv]]. apply in_map_iff in Hq.
      destruct Hq as [q0 [<- Hq]]. eapply HqK; [|eauto]. intros u Hu. apply Hins, in_flat_map; eauto. }
    assert (Hval : forall w, dcons st w -> map (eval_quad w) ins' = map (eval_quad w) ins).
    { intros w [Hc1 _]. unfold ins'. rewrite map_map. apply map_ext. intros q. rewrite dir_quad_eval.
      apply eval_quad_ext; auto. }
    destruct (call_get (s, ins') (dcalls st)) as [outs0|] eqn:Ecall; inversion Hst; subst st1 out; clear Hst.
    + destruct (di_calls _ _ _ HI _ _ Ecall) as [Ho0 Hlen0]. simpl in Hlen0.
      assert (Hlen : length outs0 = length outs) by congruence.
      exists K. split; [reflexivity|].
      pose proof (fun v => aget_combine_rev _ outs outs0 v Hlen Hnd) as Hget.
      assert (HoK : forall v x, In (v, x) (combine outs outs0) -> In x K) by (intros v x Hin; apply Ho0; eapply in_combine_r; eauto).
      split.
      { constructor; simpl.
        - intros u Hu. apply in_or_app; right; apply (di_K_D _ _ _ HI); auto.
        - apply (di_one _ _ _ HI).
        - intros u Hu. rewrite aget_app, (proj2 (Hget u)); [apply (di_K _ _ _ HI); auto|].
          intros Hc. apply (Hout u Hc), (di_K_D _ _ _ HI); auto.
        - intros u Hu. apply in_app_or in Hu. destruct (in_dec Z.eq_dec u outs) as [Hin|Hn].
          + unfold dir_var. rewrite aget_app. destruct (proj1 (Hget u) Hin) as [x [-> Hx]]. eapply HoK; eauto.
          + rewrite dir_var_new by auto. apply (di_D _ _ _ HI). destruct Hu; [contradiction|auto].
        - intros u Hu. rewrite aget_app in Hu. destruct (in_dec Z.eq_dec u outs) as [Hin|Hn].
          + split; [apply in_or_app; auto|apply Hout; auto].
          + rewrite (proj2 (Hget u)) in Hu by auto. destruct (di_dom _ _ _ HI u Hu). split; [apply in_or_app; auto|auto].
        - apply (di_calls _ _ _ HI). }
      split.
      { intros w _ v Hv. unfold dlift; simpl. rewrite dir_var_new; auto. intros Hc. apply (Hout v Hc); auto. }
      split; [simpl; auto|].
      intros w Hw Hc Hs Hf. split; [|repeat split; constructor].
      destruct Hc as [Hc1 Hc2]. split; [|exact Hc2].
      pose proof (Hc2 _ _ _ Ecall) as Hcall. rewrite (Hval w (conj Hc1 Hc2)) in Hcall. simpl in Hf.
      rewrite Hf in Hcall. inversion Hcall as [Hmap].
      intros v. unfold dlift; simpl. destruct (in_dec Z.eq_dec v outs) as [Hin|Hn]; [|rewrite dir_var_new by auto; apply Hc1].
      unfold dir_var. rewrite aget_app. destruct (proj1 (Hget v) Hin) as [x [-> Hx]].
      clear - Hx Hmap. revert outs0 Hx Hmap. induction outs as [|o r IH]; intros [|o0 r0] Hx Hmap; simpl in *; try contradiction.
      inversion Hmap. destruct Hx as [Hx|Hx]; [inversion Hx; subst; auto|eapply IH; eauto].
    + exists (outs ++ K). split.
      { cbn [intro_all]. rewrite intro_directive_mk; auto.
        - intros o Ho. destruct (Hout o Ho). split; auto. intros Hc. apply H, (di_K_D _ _ _ HI); auto.
        - unfold ins'. rewrite map_length; auto. }
      split.
      { constructor; simpl.
        - intros u Hu. apply in_app_or in Hu. apply in_or_app. destruct Hu; [auto|right; apply (di_K_D _ _ _ HI); auto].
        - apply in_or_app; right; apply (di_one _ _ _ HI).
        - intros u Hu. apply in_app_or in Hu. destruct Hu as [Hu|Hu]; [|apply (di_K _ _ _ HI); auto].
          destruct (aget u (dsub st)) eqn:E; auto. exfalso. apply (Hout u Hu), (di_dom _ _ _ HI). congruence.
        - intros u Hu. apply in_app_or in Hu. apply in_or_app. destruct Hu as [Hu|Hu]; [|right; apply (di_D _ _ _ HI); auto].
          left. rewrite Hfix; auto. apply Hout; auto.
        - intros u Hu. destruct (di_dom _ _ _ HI u Hu). split; [apply in_or_app; auto|auto].
        - intros c o Ho. destruct (call_eqb c (s, ins')) eqn:E.
          + inversion Ho; subst o. split; [apply incl_appl, incl_refl|].
            unfold call_eqb in E. apply andb_prop in E. destruct E as [E _]. apply solver_eqb_eq in E. rewrite E. auto.
          + destruct (di_calls _ _ _ HI c o Ho). split; [apply incl_appr; auto|auto]. }
      split; [auto|]. split; [simpl; auto|].
      intros w Hw Hc Hs Hf. pose proof (Hval w Hc) as Hv. destruct Hc as [Hc1 Hc2]. simpl in Hf.
      split; [|split; [repeat constructor|split; [|auto]]].
      * split; [exact Hc1|]. intros s0 ins0 outs0 Hg. simpl in Hg.
        destruct (call_eqb (s0, ins0) (s, ins')) eqn:E; [|apply Hc2; auto].
        inversion Hg; subst outs0. unfold call_eqb in E. simpl in E. apply andb_prop in E. destruct E as [E1 E2].
        apply solver_eqb_eq in E1. apply list_eqb_eq in E2; [|apply q_eqb_eq]. subst. rewrite Hv. auto.
      * constructor; [|constructor]. simpl. rewrite Hv. auto.
  - cbn [intro] in Hi. destruct (subset _ D) eqn:E; [|discriminate]. inversion Hi; subst D1. apply subset_spec in E.
    inversion Hst; subst st1 out. exists K. split.
    { cbn [intro_all intro]. replace (subset (flat_map lc_vars (map (dir_lin (dsub st)) es)) K) with true; auto.
      symmetry. apply subset_spec. intros v Hv. apply in_flat_map in Hv. destruct Hv as [l [Hl Hv]].
      apply in_map_iff in Hl. destruct Hl as [l0 [<- Hl]]. eapply HlK; eauto.
      intros u Hu. apply E, in_flat_map; eauto. }
    split; [auto|]. split; [auto|]. split; [simpl; auto|].
    intros w Hw Hc _ _. split; [auto|]. split; [repeat constructor|]. split; [repeat constructor|].
    intros _. simpl. rewrite map_map. destruct Hc as [Hc1 _].
    rewrite (map_ext _ (eval_lin w)); [reflexivity|]. intros l. rewrite dir_lin_eval. apply eval_lin_ext; auto.
Qed.

(** ** Duplicates *)
(** Equality of statements up to the attached error (derived PartialEq/Hash ignore it). *)
Definition strip (s : stmt) : stmt := match s with Constraint q l _ => Constraint q l None | _ => s end.

Variable hash : stmt -> Z.
Section Dup.
Variable univ : list stmt.
Hypothesis no_collision : forall a b, In a univ -> In b univ -> hash a = hash b -> strip a = strip b.

Lemma sat_strip : forall w a b, strip a = strip b -> sat_stmt w a -> sat_stmt w b.
Proof. intros w [] []; simpl; intros E; inversion E; subst; auto. Qed.

Lemma dup_ok : forall ss seen D D1 st1 out pre,
  incl pre univ -> incl ss univ -> (forall h, In h seen <-> In h (map hash pre)) ->
  Forall (fun s => incl (stmt_vars s) D) pre ->
  intro_all D ss = Some D1 -> run_pass (dup_step hash) seen ss = Some (st1, out) ->
  intro_all D out = Some D1 /\ incl out ss /\
  (forall w, sat w pre -> sat w out -> sat w ss).
Proof.
  induction ss as [|s r IH]; intros seen D D1 st1 out pre Hpre Hss Hseen Hv Hi Hr.
  - simpl in Hr. inversion Hr; subst. split; [auto|]. split; [apply incl_refl|auto].
  - cbn [run_pass dup_step] in Hr. cbn [intro_all] in Hi. destruct (intro D s) as [Da|] eqn:Ea; [|discriminate].
    destruct (run_pass (dup_step hash) (hash s :: seen) r) as [[sb ob]|] eqn:Eb; [|discriminate].
    inversion Hr; subst st1 out. clear Hr. pose proof (intro_mono _ _ _ Ea) as [M1 M2].
    assert (Hs : In s univ) by (apply Hss; left; auto).
    assert (Hseen1 : forall h, In h (hash s :: seen) <-> In h (map hash (pre ++ [s]))).
    { intros h. rewrite map_app, in_app_iff. simpl. rewrite Hseen. tauto. }
    assert (Hv1 : Forall (fun s => incl (stmt_vars s) Da) (pre ++ [s])).
    { apply Forall_app. split; [|constructor; auto]. eapply Forall_impl; [|exact Hv]. intros a Ha. exact (incl_tran Ha M1). }
    assert (Hpre1 : incl (pre ++ [s]) univ) by (apply incl_app; auto; intros x [<-|[]]; auto).
    assert (Hss1 : incl r univ) by (intros x Hx; apply Hss; right; auto).
    destruct (IH _ _ _ _ _ _ Hpre1 Hss1 Hseen1 Hv1 Hi Eb) as [I1 [I2 I3]].
    destruct (existsb (Z.eqb (hash s)) seen) eqn:Ex.
    + (* a duplicate *)
      apply existsb_exists in Ex. destruct Ex as [h [Hh1 Hh2]]. apply Z.eqb_eq in Hh2. subst h.
      apply Hseen, in_map_iff in Hh1. destruct Hh1 as [s0 [Hh Hin]].
      assert (Es : strip s0 = strip s) by (apply no_collision; auto).
      assert (HvD : incl (stmt_vars s) D).
      { rewrite Forall_forall in Hv. specialize (Hv _ Hin). destruct s0, s; simpl in *; inversion Es; subst; auto. }
      assert (Da = D).
      { destruct s as [q l err|outs sv ins|fmt es]; cbn [intro] in Ea.
        - destruct (subset (q_vars q) D) eqn:Eq; [|discriminate].
          rewrite (proj2 (subset_spec (lc_vars l) D)) in Ea; [congruence|].
          intros v Hx. apply HvD. simpl. apply in_or_app; auto.
        - pose proof (intro_directive_inv D outs sv ins Da Ea) as [_ [_ [Hout [_ [_ ->]]]]].
          destruct outs as [|o outs]; auto. exfalso. apply (Hout o); [left; auto|]. apply HvD. simpl. apply in_or_app; right; left; auto.
        - destruct (subset _ D); congruence. }
      subst Da. simpl. split; [auto|]. split; [apply incl_tl; auto|].
      intros w Hp Ho. assert (Hsat : sat_stmt w s).
      { unfold sat in Hp. rewrite Forall_forall in Hp. eapply sat_strip; [exact Es|auto]. }
      constructor; [auto|]. apply I3; auto. apply sat_app. split; [auto|repeat constructor; auto].
    + cbn [app]. split; [cbn [intro_all]; rewrite Ea; auto|]. split.
      { intros x [<-|Hx]; [left; auto|right; auto]. }
      intros w Hp Ho. inversion Ho; subst. constructor; auto. apply I3; auto. apply sat_app. split; auto. repeat constructor; auto.
Qed.
End Dup.
End Generic.
