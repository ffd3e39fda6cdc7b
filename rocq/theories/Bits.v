(** Big-endian bit lists and their integer values (mathematical vocabulary, used by the model and the proofs). *)
From Coq Require Import ZArith List Bool Lia Field.
From Verif Require Import PField IR Interp.
Import ListNotations.
Open Scope Z_scope.

(** Integer denoted by a big-endian bit list. *)
Fixpoint bv (l : list bool) : Z :=
  match l with
  | [] => 0
  | b :: r => (if b then 2 ^ Z.of_nat (length r) else 0) + bv r
  end.

Definition pow2 (n : nat) : Z := 2 ^ Z.of_nat n.

Lemma pow2_pos : forall n, 0 < pow2 n.
Proof. intros; unfold pow2; apply Z.pow_pos_nonneg; lia. Qed.
Lemma pow2_S : forall n, pow2 (S n) = 2 * pow2 n.
Proof. intros; unfold pow2. rewrite Nat2Z.inj_succ, Z.pow_succ_r by lia. lia. Qed.
Lemma pow2_0 : pow2 0 = 1.
Proof. reflexivity. Qed.
Lemma pow2_add : forall a b, pow2 (a + b) = pow2 a * pow2 b.
Proof. intros; unfold pow2. rewrite Nat2Z.inj_add, Z.pow_add_r by lia. lia. Qed.
Lemma pow2_le : forall a b, (a <= b)%nat -> pow2 a <= pow2 b.
Proof. intros; unfold pow2; apply Z.pow_le_mono_r; lia. Qed.
Lemma pow2_lt : forall a b, (a < b)%nat -> pow2 a < pow2 b.
Proof. intros; unfold pow2; apply Z.pow_lt_mono_r; lia. Qed.

Lemma bv_cons : forall b r, bv (b :: r) = (if b then pow2 (length r) else 0) + bv r.
Proof. reflexivity. Qed.

Lemma bv_range : forall l, 0 <= bv l < pow2 (length l).
Proof.
  induction l as [|b r IH]; [simpl; rewrite pow2_0; lia|].
  rewrite bv_cons. cbn [length]. rewrite pow2_S. pose proof (pow2_pos (length r)). destruct b; lia.
Qed.

Lemma bv_inj : forall a b, length a = length b -> bv a = bv b -> a = b.
Proof.
  induction a as [|x r IH]; intros [|y s] Hl E; try discriminate; auto.
  injection Hl as Hl. rewrite !bv_cons in E. rewrite Hl in E.
  pose proof (bv_range r) as Hr. pose proof (bv_range s) as Hs. rewrite Hl in Hr.
  assert (x = y) by (destruct x, y; auto; lia). subst y.
  f_equal. apply IH; auto. lia.
Qed.

Lemma bv_app : forall a b, bv (a ++ b) = bv a * pow2 (length b) + bv b.
Proof.
  induction a as [|x r IH]; intros b; [simpl; lia|].
  cbn [app]. rewrite !bv_cons, IH, app_length, pow2_add. destruct x; lia.
Qed.

Lemma bv_repeat_false : forall n, bv (repeat false n) = 0.
Proof. induction n; simpl; auto. Qed.

Lemma bv_zeros_app : forall n l, bv (repeat false n ++ l) = bv l.
Proof. intros; rewrite bv_app, bv_repeat_false; lia. Qed.

Lemma bv_skipn : forall k l, (k <= length l)%nat -> bv (skipn k l) = bv l mod pow2 (length l - k).
Proof.
  intros k l Hk. rewrite <- (firstn_skipn k l) at 2. rewrite bv_app, skipn_length.
  rewrite Z.add_comm, Z_mod_plus_full, Z.mod_small; auto.
  pose proof (bv_range (skipn k l)) as H. rewrite skipn_length in H. exact H.
Qed.
Lemma bv_firstn : forall k l, (k <= length l)%nat -> bv (firstn k l) = bv l / pow2 (length l - k).
Proof.
  intros k l Hk. rewrite <- (firstn_skipn k l) at 2. rewrite bv_app, skipn_length.
  pose proof (bv_range (skipn k l)) as H. rewrite skipn_length in H.
  rewrite Z.div_add_l by lia. rewrite Z.div_small by lia. lia.
Qed.

Lemma bv_zero_iff : forall l, bv l = 0 <-> Forall (fun b => b = false) l.
Proof.
  induction l as [|b r IH]; [split; auto; constructor|].
  rewrite bv_cons. pose proof (pow2_pos (length r)). pose proof (bv_range r). split.
  - intros E. constructor; [destruct b; auto; lia|]. apply IH. destruct b; lia.
  - intros F. inversion F; subst. rewrite (proj2 IH); auto.
Qed.

Lemma bv_ones : forall n, bv (repeat true n) = pow2 n - 1.
Proof.
  induction n; [reflexivity|]. cbn [repeat]. rewrite bv_cons, IHn, repeat_length, pow2_S. lia.
Qed.

Lemma bits_be_length : forall n z, length (bits_be n z) = n.
Proof. induction n; intros; simpl; auto. Qed.

Lemma bv_bits_be : forall n z, bv (bits_be n z) = z mod pow2 n.
Proof.
  induction n as [|n IH]; intros z; [simpl; rewrite pow2_0, Z.mod_1_r; reflexivity|].
  cbn [bits_be]. rewrite bv_cons, bits_be_length, IH.
  unfold pow2. rewrite <- !Z.land_ones by lia.
  rewrite Nat2Z.inj_succ.
  rewrite !Z.land_ones by lia.
  rewrite Z.pow_succ_r by lia. rewrite (Z.mul_comm 2).
  rewrite Z.rem_mul_r by (try lia; apply Z.pow_nonzero; lia).
  rewrite (Z.testbit_spec' z (Z.of_nat n)) || idtac.
  rewrite <- (Z.testbit_spec' z (Z.of_nat n)) by lia.
  destruct (Z.testbit z (Z.of_nat n)); cbn [Z.b2z]; lia.
Qed.

Lemma bits_be_bv : forall l, bits_be (length l) (bv l) = l.
Proof.
  intros l. apply bv_inj; [apply bits_be_length|]. rewrite bv_bits_be. apply Z.mod_small, bv_range.
Qed.

Lemma bits_be_mod : forall n z, bits_be n (z mod pow2 n) = bits_be n z.
Proof.
  intros n z. apply bv_inj; [rewrite !bits_be_length; auto|]. rewrite !bv_bits_be. apply Z.mod_mod.
  pose proof (pow2_pos n); lia.
Qed.

Lemma bits_be_skipn : forall k n z, (k <= n)%nat -> skipn k (bits_be n z) = bits_be (n - k) z.
Proof.
  induction k as [|k IH]; intros n z H; [rewrite Nat.sub_0_r; auto|].
  destruct n; [lia|]. cbn [bits_be skipn]. rewrite IH by lia. f_equal.
Qed.

Lemma bits_be_pad : forall k n z, 0 <= z < pow2 n -> bits_be (k + n) z = repeat false k ++ bits_be n z.
Proof.
  intros k n z Hz. apply bv_inj.
  - rewrite app_length, repeat_length, !bits_be_length; auto.
  - rewrite bv_zeros_app, !bv_bits_be. rewrite pow2_add. pose proof (pow2_pos k). pose proof (pow2_pos n).
    rewrite !Z.mod_small; nia.
Qed.

(** Pointwise combination of two bit lists. *)
Fixpoint zip2 {A B C} (f : A -> B -> C) (l1 : list A) (l2 : list B) : list C :=
  match l1, l2 with
  | x :: r1, y :: r2 => f x y :: zip2 f r1 r2
  | _, _ => []
  end.
Lemma zip2_length : forall {A B C} (f : A -> B -> C) l1 l2, length l1 = length l2 -> length (zip2 f l1 l2) = length l1.
Proof. induction l1; intros [|y l2] H; simpl in *; try discriminate; auto. Qed.
Lemma zip2_bits : forall fz fb n x y,
  (forall i, Z.testbit (fz x y) i = fb (Z.testbit x i) (Z.testbit y i)) ->
  zip2 fb (bits_be n x) (bits_be n y) = bits_be n (fz x y).
Proof.
  induction n as [|n IH]; intros x y H; simpl; auto. rewrite H, IH; auto.
Qed.
Lemma bits_be_not : forall n z, map negb (bits_be n z) = bits_be n (Z.lnot z).
Proof. induction n; intros; simpl; auto. rewrite IHn, Z.lnot_spec by lia. auto. Qed.

Lemma land_range : forall x y n, 0 <= x < pow2 n -> 0 <= y < pow2 n -> 0 <= Z.land x y < pow2 n.
Proof.
  intros x y n Hx Hy. split; [apply Z.land_nonneg; lia|].
  replace (Z.land x y) with (Z.land x y mod pow2 n); [apply Z.mod_pos_bound, pow2_pos|].
  unfold pow2. rewrite <- Z.land_ones by lia. rewrite <- Z.land_assoc. f_equal.
  rewrite Z.land_ones by lia. apply Z.mod_small; auto.
Qed.
Lemma lor_range : forall x y n, 0 <= x < pow2 n -> 0 <= y < pow2 n -> 0 <= Z.lor x y < pow2 n.
Proof.
  intros x y n Hx Hy. split; [apply Z.lor_nonneg; lia|].
  replace (Z.lor x y) with (Z.lor x y mod pow2 n); [apply Z.mod_pos_bound, pow2_pos|].
  unfold pow2. rewrite <- Z.land_ones by lia. rewrite Z.land_lor_distr_l.
  rewrite !Z.land_ones by lia. rewrite !Z.mod_small by auto. auto.
Qed.
Lemma lxor_range : forall x y n, 0 <= x < pow2 n -> 0 <= y < pow2 n -> 0 <= Z.lxor x y < pow2 n.
Proof.
  intros x y n Hx Hy. split; [apply Z.lxor_nonneg; tauto|].
  replace (Z.lxor x y) with (Z.lxor x y mod pow2 n); [apply Z.mod_pos_bound, pow2_pos|].
  assert (Hb : forall z i, 0 <= z < pow2 n -> Z.of_nat n <= i -> Z.testbit z i = false).
  { intros z i Hz Hi. rewrite <- (Z.mod_small z (pow2 n)) by auto. unfold pow2. apply Z.mod_pow2_bits_high. lia. }
  apply Z.bits_inj'. intros i Hi. destruct (Z.lt_ge_cases i (Z.of_nat n)).
  - unfold pow2. apply Z.mod_pow2_bits_low. lia.
  - rewrite Z.lxor_spec, (Hb x i), (Hb y i) by auto. unfold pow2. apply Z.mod_pow2_bits_high. lia.
Qed.

(** ** Bits as field elements *)
Section FieldBits.
Context {PF : PrimeField}.
Add Field Fbits : F_field_th.

Lemma required_bits_bounds : pow2 (required_bits - 1) <= pp < pow2 required_bits.
Proof.
  unfold required_bits, pow2. pose proof pp_gt1 as Hp.
  assert (H : 2 ^ Z.log2 pp <= pp < 2 ^ Z.succ (Z.log2 pp)) by (apply Z.log2_spec; lia). pose proof (Z.log2_nonneg pp).
  rewrite Nat2Z.inj_sub by lia. rewrite Z2Nat.id by lia.
  replace (Z.log2 pp + 1 - Z.of_nat 1) with (Z.log2 pp) by lia.
  replace (Z.log2 pp + 1) with (Z.succ (Z.log2 pp)) by lia. lia.
Qed.
Lemma required_bits_pos : (2 <= required_bits)%nat.
Proof.
  unfold required_bits. pose proof pp_gt1 as Hp.
  assert (1 <= Z.log2 pp). { replace 1 with (Z.log2 2) by reflexivity. apply Z.log2_le_mono. lia. } lia.
Qed.
Lemma pow2_small_lt_pp : forall n, (n < required_bits)%nat -> pow2 n <= pp.
Proof.
  intros n Hn. pose proof required_bits_bounds as [H _].
  assert (pow2 n <= pow2 (required_bits - 1)) by (apply pow2_le; lia). lia.
Qed.

Lemma f_of_bool_Z : forall b, f_of_bool b = of_Z (if b then 1 else 0).
Proof. destruct b; reflexivity. Qed.
Lemma f_of_bool_inj : forall a b, f_of_bool a = f_of_bool b -> a = b.
Proof. intros [|] [|] H; auto; exfalso; [|symmetry in H]; exact (F_1_neq_0 H). Qed.
Lemma fval_f_of_bool : forall b, fval (f_of_bool b) = if b then 1 else 0.
Proof. intros [|]; [apply fval_f1|reflexivity]. Qed.
Lemma f_of_bool_map_inj : forall a b, map f_of_bool a = map f_of_bool b -> a = b.
Proof.
  induction a as [|x r IH]; intros [|y s] H; try discriminate; auto.
  injection H as H1 H2. f_equal; [apply f_of_bool_inj|apply IH]; auto.
Qed.
(** x*x = x forces a bit *)
Lemma bit_of_square : forall x, fmul x x = x -> exists b, x = f_of_bool b.
Proof.
  intros x H. assert (E : fmul x (fsub x f1) = f0).
  { transitivity (fsub (fmul x x) x); [ring|rewrite H; ring]. }
  apply fmul_integral in E. destruct E as [E|E]; [exists false; auto|exists true].
  cbn [f_of_bool]. replace x with (fadd (fsub x f1) f1) by ring. rewrite E. ring.
Qed.
Lemma square_of_bit : forall b, fmul (f_of_bool b) (f_of_bool b) = f_of_bool b.
Proof. intros b. rewrite !f_of_bool_Z, <- of_Z_mul. destruct b; reflexivity. Qed.

Lemma solve_bits_eq : forall n x, solve_bits n x = map f_of_bool (bits_be n (fval x)).
Proof.
  intros n x. unfold solve_bits, to_bits_be. rewrite bits_be_length. f_equal.
  pose proof required_bits_bounds as [_ Hp]. pose proof (fval_range x) as Hx.
  destruct (Nat.le_gt_cases n required_bits).
  - rewrite bits_be_skipn, bits_be_length by lia. replace (required_bits - (required_bits - n))%nat with n by lia.
    rewrite Nat.sub_diag. reflexivity.
  - replace (required_bits - n)%nat with 0%nat by lia. cbn [skipn]. rewrite bits_be_length.
    rewrite <- bits_be_pad by lia. f_equal. lia.
Qed.
End FieldBits.
