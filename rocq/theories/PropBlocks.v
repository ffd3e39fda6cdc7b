(** C08, positive parts: redefinition removal on programs with assembly blocks (the pass as it is, blocks
    included) keeps what honest executions satisfy, and is sound when no variable it replaces is left over. *)
From Coq Require Import ZArith List Bool Lia Ring Field.
From Verif Require Import PField SMap IR IRSpec Wf IRProofs Interp InterpProofs Optimizer OptimizerProofs OptPipeline OptExtra Concrete Refutations1.
Import ListNotations.
Open Scope Z_scope.
Local Arguments Z.eqb : simpl never.

Section Blocks.
Context {PF : PrimeField}.
Add Ring Fr : F_ring_th.
Add Field Ff : F_field_th.
Variable solve : solver -> list F -> option (list F).

Lemma input_cons : forall m w q, w vone = f1 -> rcons m w ->
  match redef_input m q with inl k => k | inr q' => eval_quad w q' end = eval_quad w q.
Proof.
  intros m w q Hw Hc. rewrite (proj1 (redef_input_spec m q) w Hw).
  apply eval_quad_ext. intros; apply rlift_cons; auto.
Qed.

Lemma consts_inputs : forall m w ins ks, w vone = f1 -> rcons m w ->
  all_consts (map (redef_input m) ins) = Some ks -> map (eval_quad w) ins = ks.
Proof.
  intros m w ins ks Hw Hc Ec. apply all_consts_spec in Ec. revert ks Ec.
  induction ins as [|q r IH]; intros [|k ks] E; simpl in *; try discriminate; auto.
  inversion E as [[E1 E2]]. f_equal; [|apply IH; auto].
  pose proof (input_cons m w q Hw Hc) as H. rewrite E1 in H. auto.
Qed.

Lemma combine_values : forall (f : var -> F) l u x,
  In (u, x) (combine l (map (fun y => lc_canon (lc_const y)) (map f l))) -> x = lc_canon (lc_const (f u)).
Proof.
  intros f l. induction l as [|a l IH]; simpl; intros u x [].
  - inversion H; auto.
  - apply IH; auto.
Qed.

(** One step, on an assignment that satisfies the statement and follows it if it is a directive. *)
Lemma step_keeps : forall ag st s st1 out (w : env), redef_step solve ag st s = Some (st1, out) ->
  w vone = f1 -> rcons (rsub st) w -> sat_stmt w s -> follows_stmt solve w s ->
  rcons (rsub st1) w /\ sat w out /\ follows solve w out /\ logs_of w out = logs_of w [s].
Proof.
  intros ag st s st1 out w H Hw Hc Hs Hf. destruct s as [q l err|outs sv ins|fmt es]; cbn [redef_step] in H.
  - assert (Hk : eval_quad w (redef_quad (rsub st) q) = eval_lin w (redef_lin (rsub st) l)).
    { rewrite redef_quad_cons, redef_lin_cons by auto. exact Hs. }
    assert (Hkeep : forall l' g, eval_lin w l' = eval_lin w (redef_lin (rsub st) l) ->
              (mkR (rsub st) g, [Constraint (redef_quad (rsub st) q) l' err]) = (st1, out) ->
              rcons (rsub st1) w /\ sat w out /\ follows solve w out /\ logs_of w out = logs_of w [Constraint q l err]).
    { intros l' g El E. inversion E; subst. simpl. split; [exact Hc|]. split; [repeat constructor; simpl; congruence|].
      split; [repeat constructor|reflexivity]. }
    destruct (redef_lin (rsub st) l) as [|[v0 c0] r0] eqn:El.
    { apply (Hkeep [] (rign st)); [reflexivity|]. destruct st; simpl in *; congruence. }
    destruct (_ || _).
    { apply (Hkeep ((v0, c0) :: r0) (rign st)); [reflexivity|]. destruct st; simpl in *; congruence. }
    destruct (lc_try_summand ((v0, c0) :: r0)) as [[v k]|] eqn:Es.
    2: { apply (Hkeep ((v0, c0) :: r0) (rign st)); [reflexivity|]. destruct st; simpl in *; congruence. }
    pose proof (lc_try_summand_spec w _ _ _ Es) as Hv.
    destruct (q_try_linear (redef_quad (rsub st) q)) as [lin|] eqn:Eq.
    + destruct (lc_div lin k) as [lin'|] eqn:Ed; [|discriminate]. inversion H; subst. simpl.
      split; [|repeat split; constructor].
      destruct (lc_div_spec w _ _ _ Ed) as [Hk0 Hd].
      pose proof (q_try_linear_spec w _ _ Hw Eq) as Hl.
      intros u l1 Hu. simpl in Hu. destruct (Z.eqb_spec u v) as [->|]; [|apply Hc; auto].
      inversion Hu; subst l1. rewrite lc_canon_eval.
      assert (E : fmul k (w v) = fmul k (eval_lin w lin')) by (rewrite Hd, <- Hl, Hk, Hv; reflexivity).
      transitivity (fmul (finv k) (fmul k (w v))); [field; auto|]. rewrite E. field; auto.
    + apply (Hkeep (lc_summand k v) (v :: rign st)); [|congruence].
      rewrite Hv. simpl. ring.
  - destruct (all_consts (map (redef_input (rsub st)) ins)) as [ks|] eqn:Ec.
    + destruct (solve sv ks) as [res|] eqn:Es; [|discriminate].
      destruct (Nat.eqb_spec (length res) (length outs)) as [Hlen|]; [|discriminate].
      inversion H; subst st1 out. clear H. simpl. split; [|repeat split; constructor].
      pose proof (consts_inputs _ w _ _ Hw Hc Ec) as Hks.
      simpl in Hf. rewrite Hks, Es in Hf. inversion Hf; subst res.
      intros u l' Hu. rewrite aget_app in Hu.
      match type of Hu with (match ?x with _ => _ end) = _ => destruct x as [l1|] eqn:E end; [|apply Hc; auto].
      inversion Hu; subst l1. apply aget_In in E. apply in_rev in E.
      apply combine_values in E. subst l'. rewrite lc_canon_eval, eval_lc_const; auto.
    + inversion H; subst st1 out. clear H. simpl. split; [exact Hc|]. split; [repeat constructor|].
      split; [|reflexivity]. constructor; [|constructor]. simpl. simpl in Hf. rewrite <- Hf. f_equal.
      rewrite !map_map. apply map_ext. intros q. rewrite <- (input_cons (rsub st) w q Hw Hc).
      destruct (redef_input (rsub st) q); [|reflexivity]. rewrite eval_q_of_lc by auto. simpl. rewrite Hw. ring.
  - inversion H; subst. simpl. split; [exact Hc|]. split; [repeat constructor|]. split; [repeat constructor|].
    rewrite map_map. rewrite (map_ext _ (eval_lin w)); [reflexivity|]. intros l. apply redef_lin_cons, Hc.
Qed.

Lemma pass_keeps : forall ag ss st st1 out (w : env), run_pass (redef_step solve ag) st ss = Some (st1, out) ->
  w vone = f1 -> rcons (rsub st) w -> sat w ss -> follows solve w ss ->
  rcons (rsub st1) w /\ sat w out /\ follows solve w out /\ logs_of w out = logs_of w ss.
Proof.
  intros ag ss. induction ss as [|s r IH]; intros st st1 out w H Hw Hc Hs Hf; simpl in H.
  - inversion H; subst. auto.
  - destruct (redef_step solve ag st s) as [[sa oa]|] eqn:E; [|discriminate].
    destruct (run_pass (redef_step solve ag) sa r) as [[sb ob]|] eqn:E2; [|discriminate]. inversion H; subst.
    inversion Hs; subst. inversion Hf; subst.
    destruct (step_keeps _ _ _ _ _ w E Hw Hc) as (A1 & A2 & A3 & A4); auto.
    destruct (IH _ _ _ w E2 Hw A1) as (B1 & B2 & B3 & B4); auto.
    split; [exact B1|]. split; [apply sat_app; auto|]. split; [apply Forall_app; auto|].
    rewrite logs_app, A4, B4, <- logs_app. reflexivity.
Qed.

(** The clean-up of blocks only drops directives. *)
Lemma cleanup_spec : forall m ss o, redef_cleanup m ss = Some o -> forall w : env,
  (sat w o <-> sat w ss) /\ (follows solve w ss -> follows solve w o) /\ logs_of w o = logs_of w ss.
Proof.
  induction ss as [|s r IH]; intros o H w; [inversion H; subst; tauto|].
  change (redef_cleanup m (s :: r)) with
    (match redef_cleanup m r with
     | None => None
     | Some r' => match s with
                  | Directive [] _ _ => None
                  | Directive [o] _ _ => match aget o m with Some _ => Some r' | None => Some (s :: r') end
                  | _ => Some (s :: r')
                  end
     end) in H.
  destruct (redef_cleanup m r) as [r'|] eqn:E; [|discriminate].
  destruct (IH r' eq_refl w) as (A & B & D).
  assert (Hkeep : Some (s :: r') = Some o -> (sat w o <-> sat w (s :: r)) /\ (follows solve w (s :: r) -> follows solve w o) /\ logs_of w o = logs_of w (s :: r)).
  { intros X; inversion X; subst. split; [|split].
    - split; intros Y; inversion Y; subst; constructor; auto; apply A; auto.
    - intros Y; inversion Y; subst; constructor; auto. apply B; auto.
    - change (logs_of w ([s] ++ r') = logs_of w ([s] ++ r)). rewrite !logs_app, D. reflexivity. }
  destruct s as [q l e|outs sv ins|f es]; auto.
  destruct outs as [|o1 [|]]; auto; [discriminate|].
  destruct (aget o1 m); auto. inversion H; subst. split; [|split].
  - split; [intros Y; constructor; [exact I|apply A, Y]|intros Y; inversion Y; apply A; auto].
  - intros Y; inversion Y; apply B; auto.
  - exact D.
Qed.

Lemma flat_singles' : forall l, flat_stmts (map Single l) = l.
Proof. induction l as [|s l IH]; simpl; [reflexivity|]. f_equal. exact IH. Qed.
Lemma flat_app' : forall a b, flat_stmts (a ++ b) = flat_stmts a ++ flat_stmts b.
Proof. intros; unfold flat_stmts; apply flat_map_app. Qed.

Lemma bstep_keeps : forall st b st1 out (w : env), redef_bstep solve st b = Some (st1, out) ->
  w vone = f1 -> rcons (rsub st) w -> sat w (flat_stmts [b]) -> follows solve w (flat_stmts [b]) ->
  rcons (rsub st1) w /\ sat w (flat_stmts out) /\ follows solve w (flat_stmts out) /\ logs_of w (flat_stmts out) = logs_of w (flat_stmts [b]).
Proof.
  intros st [s|ss] st1 out w H Hw Hc Hs Hf; cbn [redef_bstep] in H.
  - destruct (redef_step solve false st s) as [[sa oa]|] eqn:E; [|discriminate]. inversion H; subst.
    rewrite flat_singles'. cbn in Hs, Hf. inversion Hs; inversion Hf; subst.
    destruct (step_keeps _ _ _ _ _ w E Hw Hc) as (A1 & A2 & A3 & A4); auto.
  - destruct (run_pass (redef_step solve true) st ss) as [[sa oa]|] eqn:E; [|discriminate].
    destruct (redef_cleanup (rsub sa) oa) as [o'|] eqn:Eo; [|discriminate]. inversion H; subst.
    cbn in Hs, Hf. rewrite app_nil_r in Hs, Hf.
    destruct (pass_keeps _ _ _ _ _ w E Hw Hc Hs Hf) as (A1 & A2 & A3 & A4).
    destruct (cleanup_spec _ _ _ Eo w) as (B1 & B2 & B3).
    change (flat_stmts [Block o']) with (o' ++ []). change (flat_stmts [Block ss]) with (ss ++ []). rewrite !app_nil_r.
    split; [exact A1|]. split; [apply B1; auto|]. split; [auto|]. congruence.
Qed.

Lemma bpass_keeps : forall bs st st1 out (w : env), run_bpass (redef_bstep solve) st bs = Some (st1, out) ->
  w vone = f1 -> rcons (rsub st) w -> sat w (flat_stmts bs) -> follows solve w (flat_stmts bs) ->
  sat w (flat_stmts out) /\ follows solve w (flat_stmts out) /\ logs_of w (flat_stmts out) = logs_of w (flat_stmts bs).
Proof.
  induction bs as [|b r IH]; intros st st1 out w H Hw Hc Hs Hf; simpl in H.
  - inversion H; subst. auto.
  - destruct (redef_bstep solve st b) as [[sa oa]|] eqn:E; [|discriminate].
    destruct (run_bpass (redef_bstep solve) sa r) as [[sb ob]|] eqn:E2; [|discriminate]. inversion H; subst.
    change (b :: r) with ([b] ++ r) in Hs, Hf |- *. rewrite flat_app' in *.
    apply sat_app in Hs as [Hs1 Hs2]. apply Forall_app in Hf as [Hf1 Hf2].
    destruct (bstep_keeps _ _ _ _ w E Hw Hc Hs1 Hf1) as (A1 & A2 & A3 & A4).
    destruct (IH _ _ _ w E2 Hw A1 Hs2 Hf2) as (B2 & B3 & B4).
    split; [apply sat_app; auto|]. split; [apply Forall_app; auto|].
    rewrite (flat_app' [b] r), !logs_app, A4, B4. reflexivity.
Qed.

(** ** Soundness *)

(** the table of replacements only grows, at its front; a replaced statement is implied by it *)
Lemma step_back : forall ag st s st1 out, redef_step solve ag st s = Some (st1, out) ->
  (exists new, rsub st1 = new ++ rsub st) /\
  forall w : env, w vone = f1 -> rcons (rsub st) w -> rcons (rsub st1) w -> sat w out -> sat_stmt w s.
Proof.
  intros ag st s st1 out H. destruct s as [q l err|outs sv ins|fmt es]; cbn [redef_step] in H.
  - assert (Hkeep : forall l' g,
              (forall w : env, eval_lin w l' = eval_lin w (redef_lin (rsub st) l)) ->
              (mkR (rsub st) g, [Constraint (redef_quad (rsub st) q) l' err]) = (st1, out) ->
              (exists new, rsub st1 = new ++ rsub st) /\
              forall w : env, w vone = f1 -> rcons (rsub st) w -> rcons (rsub st1) w -> sat w out -> sat_stmt w (Constraint q l err)).
    { intros l' g El E. inversion E; subst. split; [exists []; reflexivity|].
      intros w Hw Hc _ Hs. inversion Hs as [|? ? H1 _]; subst. simpl in *.
      rewrite El, redef_quad_cons, redef_lin_cons in H1 by auto. exact H1. }
    destruct (redef_lin (rsub st) l) as [|[v0 c0] r0] eqn:El.
    { apply (Hkeep [] (rign st)); [reflexivity|]. destruct st; simpl in *; congruence. }
    destruct (_ || _).
    { apply (Hkeep ((v0, c0) :: r0) (rign st)); [reflexivity|]. destruct st; simpl in *; congruence. }
    destruct (lc_try_summand ((v0, c0) :: r0)) as [[v k]|] eqn:Es.
    2: { apply (Hkeep ((v0, c0) :: r0) (rign st)); [reflexivity|]. destruct st; simpl in *; congruence. }
    destruct (q_try_linear (redef_quad (rsub st) q)) as [lin|] eqn:Eq.
    + destruct (lc_div lin k) as [lin'|] eqn:Ed; [|discriminate]. inversion H; subst. simpl.
      split; [exists [(v, lc_canon lin')]; reflexivity|].
      intros w Hw Hc Hc1 _. simpl.
      destruct (lc_div_spec w _ _ _ Ed) as [Hk0 Hd].
      pose proof (q_try_linear_spec w _ _ Hw Eq) as Hl.
      pose proof (lc_try_summand_spec w _ _ _ Es) as Hv.
      assert (E : w v = eval_lin w (lc_canon lin')) by (apply Hc1; simpl; rewrite Z.eqb_refl; reflexivity).
      rewrite lc_canon_eval in E.
      rewrite <- (redef_quad_cons (rsub st)), <- (redef_lin_cons (rsub st) w l) by auto.
      rewrite El, Hv, Hl, <- Hd, E. reflexivity.
    + apply (Hkeep (lc_summand k v) (v :: rign st)); [|congruence].
      intros w. pose proof (lc_try_summand_spec w _ _ _ Es) as Hv. rewrite Hv. simpl. ring.
  - split; [|intros; exact I]. destruct (all_consts _) as [ks|]; [|inversion H; subst; exists []; reflexivity].
    destruct (solve sv ks) as [res|]; [|discriminate]. destruct (Nat.eqb _ _); [|discriminate].
    inversion H; subst. simpl. eauto.
  - inversion H; subst. split; [exists []; reflexivity|intros; exact I].
Qed.

(** replacements, read from the last to the first: an assignment that agrees with all of them, keys being
    distinct, agrees with the earlier ones *)
Lemma nodup_apart : forall (a b : list var) u, NoDup (a ++ b) -> In u a -> In u b -> False.
Proof.
  induction a as [|x a IH]; simpl; intros b u Hn Ha Hb; [exact Ha|]. inversion Hn; subst.
  destruct Ha as [->|Ha]; [apply H1, in_or_app; auto|exact (IH b u H2 Ha Hb)].
Qed.
Lemma rcons_app : forall new old (w : env), NoDup (map fst (new ++ old)) -> rcons (new ++ old) w -> rcons old w.
Proof.
  intros new old w Hn H u l Hu. apply H. rewrite aget_app. destruct (aget u new) eqn:E; [|exact Hu].
  exfalso. apply aget_In in E. apply aget_In in Hu. apply (in_map fst) in E. apply (in_map fst) in Hu. simpl in *.
  rewrite map_app in Hn. exact (nodup_apart _ _ u Hn E Hu).
Qed.
Lemma nodup_app_r : forall (a b : list var), NoDup (a ++ b) -> NoDup b.
Proof. induction a; simpl; intros b H; [exact H|]. inversion H; auto. Qed.

Lemma pass_back : forall ag ss st st1 out, run_pass (redef_step solve ag) st ss = Some (st1, out) ->
  (exists new, rsub st1 = new ++ rsub st) /\
  forall w : env, w vone = f1 -> NoDup (map fst (rsub st1)) -> rcons (rsub st1) w -> sat w out -> sat w ss.
Proof.
  intros ag ss. induction ss as [|s r IH]; intros st st1 out H; simpl in H.
  - inversion H; subst. split; [exists []; reflexivity|constructor].
  - destruct (redef_step solve ag st s) as [[sa oa]|] eqn:E; [|discriminate].
    destruct (run_pass (redef_step solve ag) sa r) as [[sb ob]|] eqn:E2; [|discriminate]. inversion H; subst.
    destruct (step_back _ _ _ _ _ E) as [[n1 E1] Hb]. destruct (IH _ _ _ E2) as [[n2 En2] Hr].
    split; [exists (n2 ++ n1); rewrite En2, E1, app_assoc; reflexivity|].
    intros w Hw Hn Hc Hs. apply sat_app in Hs as [Hs1 Hs2].
    assert (Hca : rcons (rsub sa) w) by (rewrite En2 in *; eapply rcons_app; eauto).
    constructor; [|apply Hr; auto]. apply Hb; auto.
    rewrite E1 in Hca. eapply rcons_app; [|exact Hca].
    rewrite <- E1. rewrite En2, map_app in Hn. eapply nodup_app_r; eauto.
Qed.

Lemma bpass_back : forall bs st st1 out, run_bpass (redef_bstep solve) st bs = Some (st1, out) ->
  (exists new, rsub st1 = new ++ rsub st) /\
  forall w : env, w vone = f1 -> NoDup (map fst (rsub st1)) -> rcons (rsub st1) w ->
    sat w (flat_stmts out) -> sat w (flat_stmts bs).
Proof.
  induction bs as [|b r IH]; intros st st1 out H; simpl in H.
  - inversion H; subst. split; [exists []; reflexivity|constructor].
  - destruct (redef_bstep solve st b) as [[sa oa]|] eqn:E; [|discriminate].
    destruct (run_bpass (redef_bstep solve) sa r) as [[sb ob]|] eqn:E2; [|discriminate]. inversion H; subst.
    destruct (IH _ _ _ E2) as [[n2 En2] Hr].
    assert (Hb : (exists new, rsub sa = new ++ rsub st) /\
      forall w : env, w vone = f1 -> NoDup (map fst (rsub sa)) -> rcons (rsub sa) w -> sat w (flat_stmts oa) -> sat w (flat_stmts [b])).
    { clear - E. destruct b as [s|ss]; cbn [redef_bstep] in E.
      - destruct (redef_step solve false st s) as [[sc oc]|] eqn:Es; [|discriminate]. inversion E; subst.
        destruct (step_back _ _ _ _ _ Es) as [[n1 E1] Hb]. split; [eauto|]. intros w Hw Hn Hc Hs.
        rewrite flat_singles' in Hs. cbn. constructor; [|constructor]. apply Hb; auto.
        rewrite E1 in Hn, Hc. eapply rcons_app; eauto.
      - destruct (run_pass (redef_step solve true) st ss) as [[sc oc]|] eqn:Es; [|discriminate].
        destruct (redef_cleanup (rsub sc) oc) as [o'|] eqn:Eo; [|discriminate]. inversion E; subst.
        destruct (pass_back _ _ _ _ _ Es) as [Hn Hb]. split; [exact Hn|]. intros w Hw Hd Hc Hs.
        cbn in Hs |- *. rewrite app_nil_r in *. apply Hb; auto. apply (cleanup_spec _ _ _ Eo w); auto. }
    destruct Hb as [[n1 E1] Hb]. split; [exists (n2 ++ n1); rewrite En2, E1, app_assoc; reflexivity|].
    intros w Hw Hn Hc Hs. change (b :: r) with ([b] ++ r). rewrite flat_app' in *. apply sat_app in Hs as [Hs1 Hs2].
    apply sat_app. split; [|apply Hr; auto]. apply Hb; auto.
    + rewrite En2, map_app in Hn. eapply nodup_app_r; eauto.
    + rewrite En2 in *. eapply rcons_app; eauto.
Qed.

(** No variable that was replaced is left over: it is replaced once, it is not in the interface, and it occurs
    neither in a remaining constraint nor in an expression that replaces a variable. *)
Definition settled (args : list param) (ret : nat) (subst : list (var * lincomb)) (out : list bstmt) : bool :=
  let keys := map fst subst in
  let left := flat_map (fun s => match s with Constraint q l _ => q_vars q ++ lc_vars l | _ => [] end) (flat_stmts out)
              ++ flat_map (fun e => lc_vars (snd e)) subst
              ++ vone :: map pid args ++ map vpub (seq 0 ret) in
  nodupb keys && forallb (fun k => negb (mem k left)) keys.

Lemma interface_left : forall args ret v, interface args ret v -> In v (vone :: map pid args ++ map vpub (seq 0 ret)).
Proof.
  intros args ret v H. unfold interface in H. simpl. rewrite in_app_iff, !in_map_iff.
  destruct H as [H|[H|(i & Hi & H)]]; [left; auto|right; left|right; right].
  - apply in_map_iff in H. exact H.
  - exists i. split; [auto|]. apply in_seq. lia.
Qed.

Theorem redef_blocks_sound : forall args ret bs st out (w : env),
  run_bpass (redef_bstep solve) (redef_init args ret) bs = Some (st, out) ->
  settled args ret (rsub st) out = true ->
  w vone = f1 -> sat w (flat_stmts out) ->
  exists w0, w0 vone = f1 /\ sat w0 (flat_stmts bs) /\ (forall v, interface args ret v -> w0 v = w v).
Proof.
  intros args ret bs st out w H Hset Hw Hs. unfold settled in Hset.
  apply andb_prop in Hset as [Hn Hk]. apply nodupb_spec in Hn.
  assert (Hfree : forall v, In v (flat_map (fun s => match s with Constraint q l _ => q_vars q ++ lc_vars l | _ => [] end) (flat_stmts out)
              ++ flat_map (fun e => lc_vars (snd e)) (rsub st) ++ vone :: map pid args ++ map vpub (seq 0 ret)) ->
              rlift (rsub st) w v = w v).
  { intros v Hv. unfold rlift. destruct (aget v (rsub st)) eqn:E; [|reflexivity]. exfalso.
    apply aget_In in E. apply (in_map fst) in E. simpl in E. rewrite forallb_forall in Hk. specialize (Hk v E).
    apply negb_true_iff in Hk. apply mem_In in Hv. congruence. }
  exists (rlift (rsub st) w). split; [rewrite Hfree; [exact Hw|]; rewrite !in_app_iff; right; right; left; reflexivity|].
  split.
  - destruct (bpass_back _ _ _ _ H) as [_ Hb]. apply Hb; [| exact Hn| |].
    + rewrite Hfree; [exact Hw|]; rewrite !in_app_iff; right; right; left; reflexivity.
    + intros u l Hu. unfold rlift at 1. rewrite Hu. apply eval_lin_ext. intros x Hx. symmetry. apply Hfree.
      rewrite !in_app_iff. right; left. apply in_flat_map. exists (u, l). split; [apply aget_In, Hu|exact Hx].
    + unfold sat in *. rewrite Forall_forall in *. intros s Hin. specialize (Hs s Hin).
      destruct s as [q l e|outs sv ins|f es]; simpl in *; auto.
      assert (Hq : forall x, In x (q_vars q ++ lc_vars l) -> rlift (rsub st) w x = w x).
      { intros x Hx. apply Hfree. rewrite !in_app_iff. left. apply in_flat_map.
        exists (Constraint q l e). auto. }
      rewrite (eval_quad_ext _ w) by (intros; apply Hq, in_or_app; auto).
      rewrite (eval_lin_ext _ w) by (intros; apply Hq, in_or_app; auto). exact Hs.
  - intros v Hv. apply Hfree. rewrite !in_app_iff. right; right. apply interface_left, Hv.
Qed.
End Blocks.

(** Every assignment that satisfies a program, directives being computed by the solver, satisfies the program
    without redefinitions, with the same directives' outputs and logs: no honest execution is lost. *)
Theorem C08_honest_partial : forall (PF : PrimeField) (solve : solver -> list F -> option (list F)) args ret bs st out (w : env),
  run_bpass (redef_bstep solve) (redef_init args ret) bs = Some (st, out) ->
  w vone = f1 -> sat w (flat_stmts bs) -> follows solve w (flat_stmts bs) ->
  sat w (flat_stmts out) /\ follows solve w (flat_stmts out) /\ logs_of w (flat_stmts out) = logs_of w (flat_stmts bs).
Proof.
  intros PF solve args ret bs st out w H Hw Hs Hf. eapply bpass_keeps; eauto. intros u l Hu. discriminate.
Qed.
Print Assumptions C08_honest_partial.

(** When no replaced variable is left over (decided on the output of the pass), no new pair of inputs and
    returns is accepted. *)
Theorem C08_sound_partial : forall (PF : PrimeField) (solve : solver -> list F -> option (list F)) args ret bs st out (w : env),
  run_bpass (redef_bstep solve) (redef_init args ret) bs = Some (st, out) ->
  settled args ret (rsub st) out = true ->
  w vone = f1 -> sat w (flat_stmts out) ->
  exists w0, w0 vone = f1 /\ sat w0 (flat_stmts bs) /\ (forall v, interface args ret v -> w0 v = w v).
Proof. intros PF; exact redef_blocks_sound. Qed.
Print Assumptions C08_sound_partial.

(** ** Non-vacuity, over the field with 97 elements *)
Local Existing Instance pf97.
(** x = 1; asm { a <-- x / 2; a === x * 43 (that is x/2...: linear, replaces a, whose directive is dropped);
    b <-- a * a; b === a * a } ~out_0 = b *)
Definition blk_args : list param := [mkParam 1 false].
Definition blk_prog : list bstmt :=
  [ Block [ Directive [2] SDiv [q_of_lc [t 1 1]; q_of_lc [t 2 0]];
            Constraint (q_of_lc [t 49 1]) [t 1 2] None;
            Directive [3] SDiv [mkQ [t 1 2] [t 1 2]; q_of_lc [t 1 0]];
            Constraint (mkQ [t 1 2] [t 1 2]) [t 1 3] None ];
    Single (Constraint (q_of_lc [t 1 3]) [(vpub 0, f1)] None) ].
Definition blk_w : env := env2 [(0, 1); (1, 6); (2, 3); (3, 9); (-1, 9)].
Example C08_nonvacuous : exists st out,
  run_bpass (redef_bstep slv) (redef_init blk_args 1) blk_prog = Some (st, out) /\
  settled blk_args 1 (rsub st) out = true /\ length (flat_stmts out) = 3%nat /\
  sat blk_w (flat_stmts blk_prog) /\ follows slv blk_w (flat_stmts blk_prog) /\ blk_w vone = f1.
Proof.
  destruct (run_bpass (redef_bstep slv) (redef_init blk_args 1) blk_prog) as [[st out]|] eqn:E.
  2: { exfalso. assert (X : match run_bpass (redef_bstep slv) (redef_init blk_args 1) blk_prog with Some _ => true | None => false end = true) by (vm_compute; reflexivity).
       rewrite E in X. discriminate. }
  exists st, out. split; [reflexivity|].
  assert (X : match run_bpass (redef_bstep slv) (redef_init blk_args 1) blk_prog with
              | Some (st, out) => settled blk_args 1 (rsub st) out = true /\ length (flat_stmts out) = 3%nat
              | None => False end) by (vm_compute; split; reflexivity).
  rewrite E in X. destruct X as [X1 X2]. split; [exact X1|]. split; [exact X2|].
  split; [|split].
  - repeat constructor; apply F_ext; vm_compute; reflexivity.
  - repeat constructor; simpl; try exact I;
      apply (f_equal Some), (f_equal (fun x : F => [x])), F_ext; vm_compute; reflexivity.
  - apply F_ext; vm_compute; reflexivity.
Qed.
(** the check rejects the program of C08_redefinition_blocks_refuted *)
Example C08_settled_rejects : match run_bpass (redef_bstep slv) (redef_init asm_args 0) (pstmts asm_prog) with
  | Some (st, out) => settled asm_args 0 (rsub st) out = false | None => False end.
Proof. vm_compute. reflexivity. Qed.
