(** Further facts about the interpreter and the single optimiser passes. *)
From Coq Require Import ZArith List Bool Lia Ring Field.
From Verif Require Import PField SMap IR IRSpec Wf IRProofs Interp InterpProofs Optimizer OptimizerProofs OptPipeline.
Import ListNotations.
Open Scope Z_scope.
Local Arguments Z.eqb : simpl never.

Section Extra.
Context {PF : PrimeField}.
Add Ring Fr : F_ring_th.

Lemma bits_be_length : forall n z, length (bits_be n z) = n.
Proof. induction n; simpl; auto. Qed.
Lemma solve_bits_length : forall n x, length (solve_bits n x) = n.
Proof.
  intros n x. unfold solve_bits. rewrite map_length, app_length, repeat_length.
  rewrite skipn_length. unfold to_bits_be. rewrite bits_be_length. lia.
Qed.
Lemma exec_solver_arity : forall ext, arity_ok (exec_solver ext).
Proof.
  intros ext s xs res H. destruct s; simpl in H.
  all: try (destruct xs as [|x [|y [|z [|u xs]]]]; try discriminate; inversion H; subst; simpl; auto; fail).
  - destruct xs as [|x [|y [|]]]; try discriminate. inversion H. destruct (Feqb x f0); auto.
  - destruct xs as [|x [|]]; try discriminate. inversion H. apply solve_bits_length.
  - destruct (Nat.eqb (length xs) ni); [|discriminate]. destruct (ext k xs) as [r|]; [|discriminate].
    destruct (Nat.eqb_spec (length r) no); [|discriminate]. inversion H; subst; auto.
Qed.
(** the built-in solvers never fail on inputs of the right number *)
Lemma exec_solver_total : forall ext s xs, (forall k i o, s <> SExt k i o) -> length xs = fst (solver_sig s) ->
  exists res, exec_solver ext s xs = Some res.
Proof.
  intros ext s xs Hs Hl. destruct s; simpl in Hl;
  try (destruct xs as [|x [|y [|z [|u xs]]]]; try discriminate; simpl; eauto; fail).
  exfalso; eapply Hs; eauto.
Qed.

Variable solve : solver -> list F -> option (list F).

Lemma exec_no_panic : forall ss d d' w log,
  arity_ok solve -> intro_all d ss = Some d' -> (forall v, In v d -> exists x, sget v w = Some x) ->
  exec_stmts solve w log ss <> Panic.
Proof.
  induction ss as [|s r IH]; intros d d' w log Har Hi Hd; [discriminate|].
  cbn [intro_all] in Hi. destruct (intro d s) as [d1|] eqn:E1; [|discriminate].
  assert (Hdef : forall vs, incl vs d -> defined w vs) by (intros vs H v Hv; apply Hd; auto).
  destruct s as [q l err|outs s ins|fmt es]; cbn [exec_stmts].
  - cbn [intro] in E1. destruct (subset (q_vars q) d) eqn:Eq; [|discriminate]. apply subset_spec in Eq.
    rewrite evaluate_quad_defined by auto.
    destruct (subset (lc_vars l) d) eqn:El.
    + apply subset_spec in El. inversion E1; subst d1.
      destruct (is_assignee w l) as [v|] eqn:Ea.
      { apply is_assignee_spec in Ea. destruct Ea as [-> En]. exfalso.
        destruct (Hd v) as [x Hx]; [apply El; left; auto|congruence]. }
      rewrite evaluate_lin_defined by auto. destruct (Feqb _ _); [eapply IH; eauto|discriminate].
    + destruct l as [|[v c] [|]]; try discriminate.
      destruct (Feqb_spec c f1) as [->|]; [|discriminate]. inversion E1; subst d1.
      destruct (is_assignee w [(v, f1)]) as [u|] eqn:Ea.
      * apply is_assignee_spec in Ea. destruct Ea as [Eu _]. inversion Eu; subst u.
        eapply IH; eauto. intros u [<-|Hu]; [rewrite sget_sput_eq; eauto|].
        rewrite sget_sput. destruct (u =? v); eauto.
      * simpl in Ea. rewrite Feqb_refl in Ea. destruct (sget v w) as [y|] eqn:Ev; [|discriminate].
        rewrite evaluate_lin_defined by (intros u [<-|[]]; eauto).
        destruct (Feqb _ _); [|discriminate]. eapply IH; eauto. intros u [<-|Hu]; eauto.
  - apply intro_directive_inv in E1. destruct E1 as [Hins [Hnd [Hout [Hl1 [Hl2 ->]]]]].
    rewrite (opt_list_all _ _ _ (eval_quad (env_of w))).
    2:{ intros q Hq. apply evaluate_quad_defined, Hdef. intros v Hv; apply Hins, in_flat_map; eauto. }
    destruct (solve s _) as [res|] eqn:Es; [|discriminate].
    pose proof (Har _ _ _ Es) as Hr.
    destruct (put_outputs_some outs w res) as [w1 Hp]; [congruence|]. rewrite Hp.
    apply put_outputs_spec in Hp. destruct Hp as [P1 [P2 _]].
    eapply IH; eauto. intros v Hv. apply in_app_or in Hv.
    destruct (in_dec Z.eq_dec v outs); [auto|]. rewrite P1 by auto. destruct Hv; [contradiction|auto].
  - cbn [intro] in E1. destruct (subset _ d) eqn:Ec; [|discriminate]. inversion E1; subst d1. apply subset_spec in Ec.
    rewrite (opt_list_all _ _ _ (eval_lin (env_of w))).
    2:{ intros q Hq. apply evaluate_lin_defined, Hdef. intros v Hv; apply Ec, in_flat_map; eauto. }
    eapply IH; eauto.
Qed.

Lemma exec_prog_no_panic : forall args ss (inputs : list F),
  arity_ok solve -> NoDup (vone :: map pid args) -> def_before_use args ss = true ->
  exec_prog solve args ss inputs <> Panic.
Proof.
  intros args ss inputs Har Hnd Hd. unfold exec_prog, def_before_use in *.
  destruct (intro_all (vone :: map pid args) ss) as [D|] eqn:Ei; [|discriminate].
  destruct (Nat.eqb_spec (length args) (length inputs)) as [Hl|]; [|discriminate].
  destruct (init_witness_spec args inputs Hl Hnd) as [I1 [I2 I3]].
  eapply exec_no_panic; eauto.
  intros v [<-|Hv]; [eauto|]. apply in_map_iff in Hv. destruct Hv as [a [<- Ha]].
  apply (in_map (fun a => sget (pid a) (init_witness args inputs))) in Ha. rewrite I2 in Ha.
  apply in_map_iff in Ha. destruct Ha as [x [Hx _]]. eauto.
Qed.

(** ** C06: stateless passes, on programs with blocks *)
Lemma flat_app : forall a b, flat_stmts (a ++ b) = flat_stmts a ++ flat_stmts b.
Proof. intros; apply flat_map_app. Qed.
Lemma flat_single : forall l, flat_stmts (map Single l) = l.
Proof. induction l; simpl; auto. f_equal; auto. Qed.

Lemma stateless_bpass : forall (step : unit -> stmt -> option (unit * list stmt)) w,
  (forall st s st1 out, step st s = Some (st1, out) -> (sat w out <-> sat_stmt w s)) ->
  forall bs st st1 out, run_bpass (bstep step) st bs = Some (st1, out) ->
  (sat w (flat_stmts out) <-> sat w (flat_stmts bs)).
Proof.
  intros step w Hs.
  assert (Hp : forall ss st st1 out, run_pass step st ss = Some (st1, out) -> (sat w out <-> sat w ss)).
  { induction ss as [|s r IH]; intros st st1 out H; cbn [run_pass] in H; [inversion H; tauto|].
    destruct (step st s) as [[sa oa]|] eqn:E; [|discriminate].
    destruct (run_pass step sa r) as [[sb ob]|] eqn:E2; [|discriminate]. inversion H; subst.
    rewrite sat_app, (Hs _ _ _ _ E), (IH _ _ _ E2). unfold sat. rewrite Forall_cons_iff. tauto. }
  induction bs as [|b r IH]; intros st st1 out H; cbn [run_bpass] in H; [inversion H; tauto|].
  destruct (bstep step st b) as [[sa oa]|] eqn:E; [|discriminate].
  destruct (run_bpass (bstep step) sa r) as [[sb ob]|] eqn:E2; [|discriminate]. inversion H; subst.
  rewrite flat_app, sat_app, (IH _ _ _ E2).
  change (b :: r) with ([b] ++ r). rewrite flat_app, sat_app.
  cut (sat w (flat_stmts oa) <-> sat w (flat_stmts [b])); [tauto|].
  destruct b as [s|ss]; simpl in E.
  - destruct (step st s) as [[sc oc]|] eqn:Es; [|discriminate]. inversion E; subst. rewrite flat_single.
    rewrite (Hs _ _ _ _ Es). simpl. unfold sat. rewrite Forall_cons_iff. intuition constructor.
  - destruct (run_pass step st ss) as [[sc oc]|] eqn:Es; [|discriminate]. inversion E; subst.
    simpl. rewrite !app_nil_r. eapply Hp; eauto.
Qed.

Lemma taut_stmt_iff : forall w, w vone = f1 -> forall st s st1 out, taut_step st s = Some (st1, out) -> (sat w out <-> sat_stmt w s).
Proof.
  intros w Hw st s st1 out H. destruct s as [q l err|outs sv ins|f es]; simpl in H;
    try (inversion H; subst; unfold sat; rewrite Forall_cons_iff; intuition constructor).
  destruct (q_try_linear q) as [l'|] eqn:E.
  - destruct (lc_eqb l' l) eqn:El.
    + apply lc_eqb_eq in El. subst l'. inversion H; subst. simpl. rewrite (q_try_linear_spec w _ _ Hw E).
      split; [auto|constructor].
    + inversion H; subst. unfold sat. rewrite Forall_cons_iff. simpl. rewrite (q_try_linear_spec w _ _ Hw E), eval_q_of_lc by auto.
      intuition constructor.
  - inversion H; subst; unfold sat; rewrite Forall_cons_iff; intuition constructor.
Qed.
Lemma canon_stmt_iff : forall w st s st1 out, canon_pass_step st s = Some (st1, out) -> (sat w out <-> sat_stmt w s).
Proof.
  intros w st s st1 out H. inversion H; subst. unfold sat. rewrite Forall_cons_iff.
  destruct s; simpl; rewrite ?q_canon_eval, ?lc_canon_eval; intuition constructor.
Qed.

Lemma taut_bpass_iff : forall w, w vone = f1 -> forall bs st1 out, run_bpass (bstep taut_step) tt bs = Some (st1, out) ->
  (sat w (flat_stmts out) <-> sat w (flat_stmts bs)).
Proof. intros w Hw bs st1 out. apply stateless_bpass. apply taut_stmt_iff; auto. Qed.
Lemma canon_bpass_iff : forall w bs st1 out, run_bpass (bstep canon_pass_step) tt bs = Some (st1, out) ->
  (sat w (flat_stmts out) <-> sat w (flat_stmts bs)).
Proof. intros w bs st1 out. apply stateless_bpass. apply canon_stmt_iff; auto. Qed.

(** ** C10: duplicates, on programs with blocks *)
Variable hash : stmt -> Z.
Section Dups.
Variable univ : list stmt.
Hypothesis Hnc : forall a b, In a univ -> In b univ -> hash a = hash b -> strip a = strip b.

Lemma dup_pass_iff : forall ss seen pre st1 out, incl pre univ -> incl ss univ ->
  (forall h, In h seen <-> In h (map hash pre)) ->
  run_pass (dup_step hash) seen ss = Some (st1, out) ->
  (forall h, In h st1 <-> In h (map hash (pre ++ ss))) /\
  forall w, sat w pre -> (sat w out <-> sat w ss).
Proof.
  induction ss as [|s r IH]; intros seen pre st1 out Hp Hs Hseen H; cbn [run_pass dup_step] in H.
  - inversion H; subst. rewrite app_nil_r. split; [auto|tauto].
  - destruct (run_pass _ _ r) as [[sb ob]|] eqn:E; [|discriminate]. inversion H; subst. clear H.
    assert (Hsu : In s univ) by (apply Hs; left; auto).
    assert (Hp1 : incl (pre ++ [s]) univ) by (apply incl_app; auto; intros x [<-|[]]; auto).
    assert (Hs1 : incl r univ) by (intros x Hx; apply Hs; right; auto).
    assert (Hseen1 : forall h, In h (hash s :: seen) <-> In h (map hash (pre ++ [s]))).
    { intros h. rewrite map_app, in_app_iff. simpl. rewrite Hseen. tauto. }
    destruct (IH _ _ _ _ Hp1 Hs1 Hseen1 E) as [I1 I2]. rewrite <- app_assoc in I1. split; [exact I1|].
    intros w Hw. rewrite sat_app. unfold sat at 3. rewrite Forall_cons_iff. fold (sat w r).
    assert (HI : sat_stmt w s -> (sat w ob <-> sat w r)).
    { intros Hss. apply I2. apply sat_app. split; auto. repeat constructor; auto. }
    match goal with |- context[existsb ?g seen] => destruct (existsb g seen) eqn:Ex end.
    + apply existsb_exists in Ex. destruct Ex as [h [Hh1 Hh2]]. apply Z.eqb_eq in Hh2. subst h.
      apply Hseen, in_map_iff in Hh1. destruct Hh1 as [s0 [Hh Hi]].
      assert (Es : strip s0 = strip s) by (apply Hnc; auto).
      assert (Hss : sat_stmt w s).
      { unfold sat in Hw. rewrite Forall_forall in Hw. eapply sat_strip; [exact Es|auto]. }
      rewrite HI by auto. split; [tauto|]. intros [_ H]. split; [constructor|auto].
    + unfold sat at 1. rewrite Forall_cons_iff. split.
      * intros [[H1 _] H2]. split; auto. apply HI; auto.
      * intros [H1 H2]. split; [split; auto|]. apply HI; auto.
Qed.

Lemma dup_bpass_iff : forall bs seen pre st1 out, incl pre univ -> incl (flat_stmts bs) univ ->
  (forall h, In h seen <-> In h (map hash pre)) ->
  run_bpass (dup_bstep hash) seen bs = Some (st1, out) ->
  forall w, sat w pre -> (sat w (flat_stmts out) <-> sat w (flat_stmts bs)).
Proof.
  induction bs as [|b r IH]; intros seen pre st1 out Hp Hs Hseen H w Hw; cbn [run_bpass] in H; [inversion H; tauto|].
  destruct (dup_bstep hash seen b) as [[sa oa]|] eqn:E; [|discriminate].
  destruct (run_bpass (dup_bstep hash) sa r) as [[sb ob]|] eqn:E2; [|discriminate]. inversion H; subst. clear H.
  change (b :: r) with ([b] ++ r) in *. rewrite flat_app in Hs. rewrite !flat_app, !sat_app.
  assert (Hb : incl (flat_stmts [b]) univ) by (intros x Hx; apply Hs, in_or_app; auto).
  assert (Hr : incl (flat_stmts r) univ) by (intros x Hx; apply Hs, in_or_app; auto).
  assert (HE : run_pass (dup_step hash) seen (flat_stmts [b]) = Some (sa, flat_stmts oa)).
  { destruct b as [s|ss]; simpl in E.
    - inversion E; subst. unfold flat_stmts at 1. cbn [flat_map app run_pass dup_step]. rewrite flat_single, app_nil_r. reflexivity.
    - destruct (run_pass (dup_step hash) seen ss) as [[sc oc]|] eqn:Es; [|discriminate]. inversion E; subst.
      simpl. rewrite app_nil_r, flat_single. auto. }
  destruct (dup_pass_iff _ _ _ _ _ Hp Hb Hseen HE) as [D1 D2]. rewrite (D2 w Hw).
  assert (Hpre : incl (pre ++ flat_stmts [b]) univ) by (apply incl_app; auto).
  pose proof (fun H1 => IH sa (pre ++ flat_stmts [b]) _ _ Hpre Hr D1 E2 w (proj2 (sat_app w _ _) (conj Hw H1))) as HI.
  split; intros [H1 H2]; split; auto; apply HI; auto.
Qed.
End Dups.
End Extra.
