(** Lemmas about linear and quadratic combinations. *)
From Coq Require Import ZArith List Bool Lia Ring Field.
From Verif Require Import PField SMap IR IRSpec.
Import ListNotations.
Open Scope Z_scope.

Local Arguments Z.eqb : simpl never.
Local Arguments Z.ltb : simpl never.
Section IRProofs.
Context {PF : PrimeField}.
Add Ring Fr : F_ring_th.
Add Field Ff : F_field_th.
Local Open Scope F_scope.

Lemma eval_lin_app : forall w a b, eval_lin w (a ++ b) = eval_lin w a + eval_lin w b.
Proof. induction a as [|[v c] r IH]; intros b; simpl; [ring|]. rewrite IH; ring. Qed.

Lemma eval_lin_ext : forall w w' l, (forall v, In v (lc_vars l) -> w v = w' v) -> eval_lin w l = eval_lin w' l.
Proof.
  induction l as [|[v c] r IH]; intros H; simpl in *; auto.
  rewrite IH, (H v); auto.
Qed.

Lemma eval_quad_ext : forall w w' q, (forall v, In v (q_vars q) -> w v = w' v) -> eval_quad w q = eval_quad w' q.
Proof.
  intros w w' [l r] H. unfold eval_quad, q_vars in *; simpl in *.
  f_equal; apply eval_lin_ext; intros; apply H, in_or_app; auto.
Qed.

Lemma eval_lc_map_scale : forall w k l,
  eval_lin w (map (fun t => (fst t, fmul (snd t) k)) l) = k * eval_lin w l.
Proof. induction l as [|[v c] r IH]; simpl; [ring|]. rewrite IH; ring. Qed.

Lemma eval_lc_scale : forall w k l, eval_lin w (lc_scale k l) = k * eval_lin w l.
Proof.
  intros w k l. unfold lc_scale. destruct (Feqb_spec k f1) as [->|].
  - ring.
  - apply eval_lc_map_scale.
Qed.

Lemma lc_scale_vars : forall k l, lc_vars (lc_scale k l) = lc_vars l.
Proof.
  intros k l; unfold lc_scale, lc_vars. destruct (Feqb k f1); auto.
  rewrite map_map; reflexivity.
Qed.

Lemma eval_lc_sub : forall w a b, eval_lin w (lc_sub a b) = eval_lin w a - eval_lin w b.
Proof.
  intros w a b. unfold lc_sub. rewrite eval_lin_app.
  induction b as [|[v c] r IH]; simpl; [ring|].
  assert (H : forall x y z : F, x + y = x - z -> y = - z).
  { intros x y z H. replace y with (x + y - x) by ring. rewrite H. ring. }
  apply H in IH. rewrite IH. ring.
Qed.

Lemma eval_lc_one : forall w, w vone = f1 -> eval_lin w lc_one = f1.
Proof. intros w H; simpl. rewrite H. ring. Qed.

Lemma eval_lc_const : forall w x, w vone = f1 -> eval_lin w (lc_const x) = x.
Proof. intros w x H. unfold lc_const. rewrite eval_lc_scale, eval_lc_one by auto. ring. Qed.

Lemma eval_q_of_lc : forall w l, w vone = f1 -> eval_quad w (q_of_lc l) = eval_lin w l.
Proof. intros w l H. unfold eval_quad, q_of_lc; simpl. rewrite H. ring. Qed.

Lemma lc_div_spec : forall w l k l', lc_div l k = Some l' -> k <> f0 /\ k * eval_lin w l' = eval_lin w l.
Proof.
  unfold lc_div; intros w l k l' H. destruct (Feqb_spec k f0) as [|Hk]; [discriminate|].
  inversion H; subst. split; auto. rewrite eval_lc_scale. field; auto.
Qed.

Lemma coeff_sum_acc : forall l a,
  fold_left (fun acc t => acc + snd t) l a = a + fold_left (fun acc (t : var * F) => acc + snd t) l f0.
Proof.
  induction l as [|t r IH]; intros a; simpl; [ring|].
  rewrite IH, (IH (f0 + snd t)). ring.
Qed.

Lemma eval_all_same : forall w v0 l, forallb (fun t => (fst t =? v0)%Z) l = true ->
  eval_lin w l = lc_coeff_sum l * w v0.
Proof.
  induction l as [|[v c] r IH]; unfold lc_coeff_sum; simpl; intros H; [ring|].
  apply andb_prop in H; destruct H as [H1 H2]. apply Z.eqb_eq in H1; subst v.
  rewrite coeff_sum_acc. change (fold_left _ r f0) with (lc_coeff_sum r).
  rewrite IH by auto. ring.
Qed.

Lemma lc_try_constant_spec : forall w l k, w vone = f1 -> lc_try_constant l = Some k -> eval_lin w l = k.
Proof.
  intros w l k Hw H. destruct l as [|[v0 c0] r]; simpl in H; [inversion H; auto|].
  destruct (Z.eqb_spec v0 vone) as [E|]; cbn [negb] in H; [|discriminate].
  rewrite Z.eqb_refl in H; cbn [andb] in H.
  destruct (forallb (fun t : Z * F => (fst t =? v0)%Z) r) eqn:Ef; [|discriminate]. inversion H; subst k.
  rewrite (eval_all_same w v0).
  - rewrite E, Hw. ring.
  - simpl. rewrite Z.eqb_refl; auto.
Qed.

Lemma lc_try_summand_spec : forall w l v k, lc_try_summand l = Some (v, k) -> eval_lin w l = k * w v.
Proof.
  intros w l v k H. destruct l as [|[v0 c0] r]; simpl in H; [discriminate|].
  rewrite Z.eqb_refl in H; cbn [andb] in H.
  destruct (forallb (fun t : Z * F => (fst t =? v0)%Z) r) eqn:Ef; [|discriminate]. inversion H; subst.
  apply eval_all_same. simpl. rewrite Z.eqb_refl; auto.
Qed.

Lemma q_try_linear_spec : forall w q l, w vone = f1 -> q_try_linear q = Some l -> eval_quad w q = eval_lin w l.
Proof.
  intros w [a b] l Hw H. unfold q_try_linear in H; simpl in H. unfold eval_quad; simpl.
  destruct (lc_is_zero a || lc_is_zero b) eqn:Ez.
  - inversion H; subst. apply orb_prop in Ez. destruct a; destruct b; simpl in *; destruct Ez; try discriminate; ring.
  - destruct (lc_try_constant a) as [k|] eqn:Ea.
    + inversion H; subst. rewrite (lc_try_constant_spec w a k), eval_lc_scale; auto.
    + destruct (lc_try_constant b) as [k|] eqn:Eb; [|discriminate].
      inversion H; subst. rewrite (lc_try_constant_spec w b k), eval_lc_scale; auto; ring.
Qed.

Lemma q_try_linear_vars : forall q l, q_try_linear q = Some l -> incl (lc_vars l) (q_vars q).
Proof.
  intros [a b] l H. unfold q_try_linear in H; simpl in H. unfold q_vars; simpl.
  destruct (lc_is_zero a || lc_is_zero b); [inversion H; subst; intros x []|].
  destruct (lc_try_constant a); [inversion H; subst; rewrite lc_scale_vars; apply incl_appr, incl_refl|].
  destruct (lc_try_constant b); inversion H; subst; rewrite lc_scale_vars; apply incl_appl, incl_refl.
Qed.

(** ** Canonical forms *)
Definition canonical (l : lincomb) : Prop := ssorted l /\ Forall (fun t => snd t <> f0) l.

Lemma eval_sput_new : forall w v c m, sget v m = None -> eval_lin w (sput v c m) = c * w v + eval_lin w m.
Proof.
  induction m as [|[v' c'] r IH]; simpl; intros H; auto.
  destruct (Z.eqb_spec v v') as [|Hne]; [discriminate|].
  destruct (v <? v')%Z; simpl; auto. rewrite IH by auto. ring.
Qed.

Lemma eval_sput_old : forall w v c o m, ssorted m -> sget v m = Some o ->
  eval_lin w (sput v c m) = (c - o) * w v + eval_lin w m.
Proof.
  intros w v c o m Hs; induction Hs as [|v' c' r Hf Hs IH]; simpl; intros H; [discriminate|].
  destruct (Z.eqb_spec v v') as [->|Hne].
  - inversion H; subst. destruct (Z.ltb_spec v' v'); [lia|]. simpl. ring.
  - destruct (Z.ltb_spec v v').
    + exfalso. rewrite sget_lt_None in H; [discriminate|].
      eapply Forall_impl; [|exact Hf]. simpl; intros; lia.
    + simpl. rewrite IH by auto. ring.
Qed.

Lemma eval_sdel : forall w v o m, sget v m = Some o -> eval_lin w (sdel v m) = eval_lin w m - o * w v.
Proof.
  induction m as [|[v' c'] r IH]; simpl; intros H; [discriminate|].
  destruct (Z.eqb_spec v v') as [->|].
  - inversion H; subst. ring.
  - simpl. rewrite IH by auto. ring.
Qed.

Lemma canon_step_spec : forall acc t, canonical acc ->
  canonical (canon_step acc t) /\
  (forall w, eval_lin w (canon_step acc t) = snd t * w (fst t) + eval_lin w acc).
Proof.
  intros acc [v c] [Hs Hn]. unfold canon_step; simpl.
  destruct (Feqb_spec c f0) as [->|Hc].
  - split; [split; auto|]. intros; ring.
  - destruct (sget v acc) as [o|] eqn:Eg.
    + destruct (Feqb_spec (o + c) f0) as [E|Hne].
      * split; [split; [apply sdel_sorted|apply sdel_Forall]; auto|].
        intros w. rewrite (eval_sdel w v o) by auto.
        replace c with ((o + c) - o) by ring. rewrite E. ring.
      * split; [split; [apply sput_sorted|apply sput_Forall]; auto|].
        intros w. rewrite (eval_sput_old w v _ o) by auto. ring.
    + split; [split; [apply sput_sorted|apply sput_Forall]; auto|].
      intros w. rewrite eval_sput_new by auto. ring.
Qed.

Lemma canon_fold_spec : forall l acc, canonical acc ->
  canonical (fold_left canon_step l acc) /\
  (forall w, eval_lin w (fold_left canon_step l acc) = eval_lin w l + eval_lin w acc).
Proof.
  induction l as [|[v c] r IH]; intros acc Ha; cbn [fold_left].
  - split; auto. intros; simpl; ring.
  - destruct (canon_step_spec acc (v, c) Ha) as [H1 H2].
    destruct (IH _ H1) as [H3 H4]. split; auto.
    intros w. rewrite H4, H2. simpl. ring.
Qed.

Lemma lc_canon_canonical : forall l, canonical (lc_canon l).
Proof. intros l. apply canon_fold_spec. split; constructor. Qed.

Lemma lc_canon_eval : forall l w, eval_lin w (lc_canon l) = eval_lin w l.
Proof.
  intros l w. unfold lc_canon. destruct (canon_fold_spec l []) as [_ H]; [split; constructor|].
  rewrite H. simpl. ring.
Qed.

Lemma q_canon_eval : forall q w, eval_quad w (q_canon q) = eval_quad w q.
Proof. intros q w. unfold eval_quad, q_canon; simpl. rewrite !lc_canon_eval. reflexivity. Qed.

(** The assignment that is 1 on ~one, [x] on [v] and 0 elsewhere. *)
Definition unit_env (v : var) (x : F) : env := fun u => if (u =? v)%Z then x else if (u =? vone)%Z then f1 else f0.

Definition get0 (v : var) (l : lincomb) : F := match sget v l with Some c => c | None => f0 end.

Lemma eval_unit_absent : forall v x l, Forall (fun t : var * F => fst t <> v /\ fst t <> vone) l ->
  eval_lin (unit_env v x) l = f0.
Proof.
  induction l as [|[u c] r IH]; intros H; simpl; auto. inversion H as [|? ? [H1 H2] H3]; subst; simpl in *.
  rewrite IH by auto. unfold unit_env.
  destruct (Z.eqb_spec u v); [contradiction|]. destruct (Z.eqb_spec u vone); [contradiction|]. ring.
Qed.

Lemma eval_unit : forall v x l, ssorted l -> v <> vone ->
  eval_lin (unit_env v x) l = get0 v l * x + get0 vone l.
Proof.
  intros v x l Hs Hv; induction Hs as [|u c r Hf Hs IH]; unfold get0 in *; simpl; [ring|].
  rewrite IH. unfold unit_env. rewrite (Z.eqb_sym v u). rewrite (Z.eqb_sym vone u).
  destruct (Z.eqb_spec u v) as [->|].
  - rewrite (sget_lt_None v r Hf). destruct (Z.eqb_spec v vone); [contradiction|]. ring.
  - destruct (Z.eqb_spec u vone) as [->|].
    + rewrite (sget_lt_None vone r Hf). ring.
    + ring.
Qed.

Lemma canonical_unique : forall l1 l2, canonical l1 -> canonical l2 ->
  (forall w, w vone = f1 -> eval_lin w l1 = eval_lin w l2) -> l1 = l2.
Proof.
  intros l1 l2 [S1 N1] [S2 N2] H. apply ssorted_ext; auto.
  assert (Hu : forall v, v <> vone -> unit_env v f0 vone = f1 /\ unit_env v f1 vone = f1).
  { intros v Hv. unfold unit_env. destruct (Z.eqb_spec vone v); [congruence|]. rewrite Z.eqb_refl; auto. }
  assert (G1 : get0 vone l1 = get0 vone l2).
  { destruct (Hu 1%Z) as [Hu0 _]; [discriminate|].
    pose proof (H (unit_env 1%Z f0) Hu0) as E. rewrite !eval_unit in E by (auto; discriminate).
    replace (get0 vone l1) with (get0 1%Z l1 * 0 + get0 vone l1) by ring. rewrite E. ring. }
  assert (G : forall v, get0 v l1 = get0 v l2).
  { intros v. destruct (Z.eq_dec v vone) as [->|Hv]; auto.
    destruct (Hu v Hv) as [_ Hu1].
    pose proof (H (unit_env v f1) Hu1) as E. rewrite !eval_unit, G1 in E by auto.
    replace (get0 v l1) with (get0 v l1 * 1 + get0 vone l2 - get0 vone l2) by ring. rewrite E. ring. }
  intros k. specialize (G k). unfold get0 in G.
  destruct (sget k l1) as [c1|] eqn:E1; destruct (sget k l2) as [c2|] eqn:E2; auto.
  - subst; auto.
  - exfalso. apply sget_In in E1. rewrite Forall_forall in N1. apply (N1 _ E1). auto.
  - exfalso. apply sget_In in E2. rewrite Forall_forall in N2. apply (N2 _ E2). auto.
Qed.

Lemma lc_canon_iff : forall l1 l2,
  lc_canon l1 = lc_canon l2 <-> (forall w, w vone = f1 -> eval_lin w l1 = eval_lin w l2).
Proof.
  intros l1 l2; split.
  - intros H w _. rewrite <- (lc_canon_eval l1), <- (lc_canon_eval l2), H. reflexivity.
  - intros H. apply canonical_unique; try apply lc_canon_canonical.
    intros w Hw. rewrite !lc_canon_eval; auto.
Qed.

Lemma canon_step_vars : forall acc t, incl (lc_vars (canon_step acc t)) (fst t :: lc_vars acc).
Proof.
  assert (Hp : forall v (c : F) m, incl (lc_vars (sput v c m)) (v :: lc_vars m)).
  { induction m as [|[v' c'] r IH]; simpl; intros x Hx; [exact Hx|].
    destruct (v <? v')%Z; [exact Hx|]. destruct (Z.eqb_spec v v'); simpl in Hx.
    - simpl. tauto.
    - destruct Hx as [->|Hx]; [simpl; tauto|]. apply IH in Hx. simpl in *; tauto. }
  assert (Hd : forall v (m : lincomb), incl (lc_vars (sdel v m)) (lc_vars m)).
  { induction m as [|[v' c'] r IH]; simpl; intros x Hx; [exact Hx|].
    destruct (v =? v')%Z; [right; exact Hx|]. simpl in Hx. destruct Hx; [left; auto|right; apply IH; auto]. }
  intros acc [v c]. unfold canon_step; simpl. destruct (Feqb c f0); [apply incl_tl, incl_refl|].
  destruct (sget v acc); [|apply Hp]. destruct (Feqb (f + c) f0).
  - apply incl_tl, Hd.
  - apply Hp.
Qed.

Lemma lc_canon_vars : forall l, incl (lc_vars (lc_canon l)) (lc_vars l).
Proof.
  intros l. unfold lc_canon.
  assert (H : forall l acc, incl (lc_vars (fold_left canon_step l acc)) (lc_vars l ++ lc_vars acc)).
  { induction l0 as [|t r IH]; intros acc; simpl; [apply incl_refl|].
    intros x Hx. apply IH, in_app_or in Hx. destruct Hx as [Hx|Hx].
    - right; apply in_or_app; auto.
    - apply canon_step_vars in Hx. destruct Hx as [<-|Hx]; [left; auto|right; apply in_or_app; auto]. }
  specialize (H l []). rewrite app_nil_r in H. exact H.
Qed.

Lemma q_canon_vars : forall q, incl (q_vars (q_canon q)) (q_vars q).
Proof.
  intros [a b]. unfold q_vars; simpl. apply incl_app; [apply incl_appl|apply incl_appr]; apply lc_canon_vars.
Qed.

(** Syntactic equality tests *)
Lemma list_eqb_eq : forall A (eqb : A -> A -> bool) (l1 l2 : list A),
  (forall x y, eqb x y = true <-> x = y) -> (list_eqb eqb l1 l2 = true <-> l1 = l2).
Proof.
  intros A eqb l1 l2 H; revert l2. induction l1 as [|x r IH]; intros [|y r2]; simpl; split; try congruence; intros E.
  - apply andb_prop in E. destruct E as [E1 E2]. apply H in E1. apply IH in E2. congruence.
  - inversion E; subst. apply andb_true_intro; split; [apply H|apply IH]; auto.
Qed.

Lemma lc_eqb_eq : forall a b, lc_eqb a b = true <-> a = b.
Proof.
  intros; apply list_eqb_eq. intros [x c] [y d]; simpl. rewrite andb_true_iff, Z.eqb_eq, Feqb_eq.
  split; [intros [-> ->]; auto|intros E; inversion E; auto].
Qed.
Lemma q_eqb_eq : forall a b, q_eqb a b = true <-> a = b.
Proof.
  intros [a1 a2] [b1 b2]; unfold q_eqb; simpl. rewrite andb_true_iff, !lc_eqb_eq.
  split; [intros [-> ->]; auto|intros E; inversion E; auto].
Qed.
Lemma solver_eqb_eq : forall a b, solver_eqb a b = true <-> a = b.
Proof.
  intros a b; destruct a, b; simpl; split; try congruence; rewrite ?andb_true_iff, ?Nat.eqb_eq, ?Z.eqb_eq;
    try (intros [[-> ->] ->]; auto); try (intros ->; auto); try (intros E; inversion E; auto).
Qed.
End IRProofs.
