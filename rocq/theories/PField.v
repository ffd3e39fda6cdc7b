(** Prime fields, as canonical residues in [0,p), for every prime p.
    Models the arithmetic behind zokrates_field/src/lib.rs (trait Field, l.59-181, and the
    prime_field! macro, l.190-460): every ZoKrates field is the integers modulo a prime; the
    arithmetic itself is implemented by the external crate ark-ff, which is modelled by its
    mathematical meaning. *)
From Coq Require Import ZArith Znumtheory Lia List Bool Eqdep_dec Ring Field.
Import ListNotations.
Open Scope Z_scope.

(** A prime field: a modulus and the proof that it is prime. *)
Class PrimeField := { pp : Z; pp_prime : prime pp }.

Section FieldDef.
Context {PF : PrimeField}.

Lemma pp_gt1 : 1 < pp.
Proof. pose proof (prime_ge_2 _ pp_prime); lia. Qed.

(** zokrates_field/src/lib.rs:193-200 FieldPrime{v}: canonical representative. *)
Record F := mkF { fval : Z; fcan : (fval mod pp =? fval) = true }.

Lemma F_ext : forall x y : F, fval x = fval y -> x = y.
Proof.
  intros [x Hx] [y Hy]; simpl; intros H. subst y.
  f_equal. apply UIP_dec. apply Bool.bool_dec.
Qed.

Lemma of_Z_can : forall z, ((z mod pp) mod pp =? z mod pp) = true.
Proof. intros z. apply Z.eqb_eq. apply Zmod_mod. Qed.

Definition of_Z (z : Z) : F := mkF (z mod pp) (of_Z_can z).

Definition f0 : F := of_Z 0.
Definition f1 : F := of_Z 1.
Definition fadd (x y : F) : F := of_Z (fval x + fval y).
Definition fmul (x y : F) : F := of_Z (fval x * fval y).
Definition fopp (x : F) : F := of_Z (- fval x).
Definition fsub (x y : F) : F := of_Z (fval x - fval y).

(** Extended Euclid, used to compute inverses (ark_ff Field::inverse). *)
Fixpoint egcd (fuel : nat) (r0 s0 r1 s1 : Z) : Z :=
  match fuel with
  | O => s0
  | S k => if r1 =? 0 then s0 else egcd k r1 s1 (r0 mod r1) (s0 - (r0 / r1) * s1)
  end.
Definition egcd_fuel : nat := Z.to_nat (2 * Z.log2 pp + 4).
Definition finv (x : F) : F := of_Z (egcd egcd_fuel pp 0 (fval x) 1).
Definition fdiv (x y : F) : F := fmul x (finv y).
Definition Feqb (x y : F) : bool := fval x =? fval y.

Lemma fval_range : forall x, 0 <= fval x < pp.
Proof.
  intros [x Hx]; simpl. apply Z.eqb_eq in Hx. rewrite <- Hx.
  apply Z.mod_pos_bound. pose proof pp_gt1; lia.
Qed.

Lemma fval_of_Z : forall z, fval (of_Z z) = z mod pp.
Proof. reflexivity. Qed.

Lemma fval_of_Z_small : forall z, 0 <= z < pp -> fval (of_Z z) = z.
Proof. intros; simpl; apply Z.mod_small; lia. Qed.

Lemma of_Z_fval : forall x, of_Z (fval x) = x.
Proof. intros x; apply F_ext; simpl. apply Z.mod_small, fval_range. Qed.

Lemma of_Z_eq : forall a b, of_Z a = of_Z b <-> a mod pp = b mod pp.
Proof.
  intros; split; intros H.
  - apply (f_equal fval) in H; exact H.
  - apply F_ext; exact H.
Qed.

Lemma of_Z_add : forall a b, of_Z (a + b) = fadd (of_Z a) (of_Z b).
Proof. intros; apply F_ext; simpl. apply Z.add_mod. pose proof pp_gt1; lia. Qed.
Lemma of_Z_mul : forall a b, of_Z (a * b) = fmul (of_Z a) (of_Z b).
Proof. intros; apply F_ext; simpl. apply Z.mul_mod. pose proof pp_gt1; lia. Qed.
Lemma of_Z_opp : forall a, of_Z (- a) = fopp (of_Z a).
Proof.
  intros; apply F_ext; simpl.
  replace (-a) with (0 - a) by lia. replace (-(a mod pp)) with (0 - a mod pp) by lia.
  rewrite Zminus_mod_idemp_r. reflexivity.
Qed.
Lemma of_Z_sub : forall a b, of_Z (a - b) = fsub (of_Z a) (of_Z b).
Proof. intros; apply F_ext; simpl. apply Zminus_mod. Qed.

Lemma of_Z_mod : forall a, of_Z (a mod pp) = of_Z a.
Proof. intros; apply F_ext; simpl. apply Zmod_mod. Qed.

Ltac fz := intros; apply F_ext; unfold fadd, fmul, fopp, fsub; simpl;
  rewrite ?Zplus_mod_idemp_l, ?Zplus_mod_idemp_r, ?Zmult_mod_idemp_l, ?Zmult_mod_idemp_r.

Lemma F_ring_th : ring_theory f0 f1 fadd fmul fsub fopp eq.
Proof.
  constructor.
  - intros x; unfold f0, fadd; rewrite <- (of_Z_fval x) at 2. apply of_Z_eq. simpl. reflexivity.
  - fz. f_equal; lia.
  - fz. f_equal; lia.
  - intros x; unfold f1, fmul; rewrite <- (of_Z_fval x) at 2. apply of_Z_eq. simpl.
    rewrite Zmult_mod_idemp_l. f_equal; lia.
  - fz. f_equal; lia.
  - fz. f_equal; lia.
  - fz. f_equal; lia.
  - intros x y; apply F_ext; unfold fsub, fadd, fopp; simpl. rewrite Zplus_mod_idemp_r. f_equal; lia.
  - intros x; apply F_ext; unfold fadd, fopp; simpl. rewrite Zplus_mod_idemp_r.
    replace (fval x + - fval x) with 0 by lia. reflexivity.
Qed.

Lemma F_1_neq_0 : f1 <> f0.
Proof.
  intros H. apply (f_equal fval) in H. simpl in H. pose proof pp_gt1.
  rewrite !Z.mod_small in H by lia. lia.
Qed.

Lemma egcd_spec : forall fuel x r0 s0 r1 s1,
  0 < r0 -> 0 <= r1 -> r1 < r0 ->
  r0 * r1 < 2 ^ Z.of_nat fuel ->
  (s0 * x) mod pp = r0 mod pp -> (s1 * x) mod pp = r1 mod pp ->
  (egcd (S fuel) r0 s0 r1 s1 * x) mod pp = Z.gcd r0 r1 mod pp.
Proof.
  induction fuel as [|k IH]; intros x r0 s0 r1 s1 H0 H1 Hlt Hf Hs0 Hs1.
  - cbn [egcd]. destruct (Z.eqb_spec r1 0) as [->|Hne].
    + rewrite Z.gcd_0_r, Z.abs_eq by lia. exact Hs0.
    + simpl in Hf. nia.
  - cbn [egcd]. destruct (Z.eqb_spec r1 0) as [->|Hne].
    + rewrite Z.gcd_0_r, Z.abs_eq by lia. exact Hs0.
    + change (if r1 =? 0 then _ else _) with (if r1 =? 0 then s0 else egcd (S k) r1 s1 (r0 mod r1) (s0 - r0 / r1 * s1)).
      pose proof (Z.mod_pos_bound r0 r1 ltac:(lia)) as Hm.
      pose proof (Z.div_mod r0 r1 ltac:(lia)) as Hdm.
      assert (Hq : 1 <= r0 / r1) by (apply Z.div_le_lower_bound; lia).
      replace (Z.gcd r0 r1) with (Z.gcd r1 (r0 mod r1)).
      2:{ rewrite Z.gcd_comm, Z.gcd_mod by lia. apply Z.gcd_comm. }
      change (if r0 mod r1 =? 0 then s1 else egcd k (r0 mod r1) (s0 - r0 / r1 * s1) (r1 mod (r0 mod r1)) (s1 - r1 / (r0 mod r1) * (s0 - r0 / r1 * s1)))
        with (egcd (S k) r1 s1 (r0 mod r1) (s0 - r0 / r1 * s1)).
      apply IH; [lia|lia|lia| |exact Hs1| ].
      * rewrite Nat2Z.inj_succ, Z.pow_succ_r in Hf by lia.
        assert (r0 >= r1 + r0 mod r1) by nia. nia.
      * rewrite Z.mul_sub_distr_r, Zminus_mod, Hs0.
        replace (r0 / r1 * s1 * x) with (r0 / r1 * (s1 * x)) by lia.
        rewrite <- (Zmult_mod_idemp_r (s1 * x)), Hs1, Zmult_mod_idemp_r, <- Zminus_mod.
        f_equal. lia.
Qed.

Lemma finv_spec : forall x, x <> f0 -> fmul (finv x) x = f1.
Proof.
  intros x Hx. apply F_ext. unfold fmul, finv. simpl.
  rewrite Zmult_mod_idemp_l. pose proof pp_gt1 as Hp. pose proof (fval_range x) as Hr.
  assert (Hnz : fval x <> 0).
  { intros E. apply Hx, F_ext. simpl. rewrite E. reflexivity. }
  unfold egcd_fuel.
  assert (Hl : 2 ^ Z.log2 pp <= pp < 2 ^ Z.succ (Z.log2 pp)) by (apply Z.log2_spec; lia). pose proof (Z.log2_nonneg pp) as Hln.
  replace (Z.to_nat (2 * Z.log2 pp + 4)) with (S (Z.to_nat (2 * Z.log2 pp + 3))) by lia.
  rewrite egcd_spec; try lia.
  - f_equal. apply Zgcd_1_rel_prime. apply rel_prime_sym, rel_prime_le_prime; [apply pp_prime|lia].
  - rewrite Z2Nat.id by lia.
    replace (2 * Z.log2 pp + 3) with (Z.succ (Z.log2 pp) + (Z.succ (Z.log2 pp) + 1)) by lia.
    rewrite Z.pow_add_r by lia.
    assert (0 < 2 ^ (Z.succ (Z.log2 pp))) by (apply Z.pow_pos_nonneg; lia).
    rewrite Z.pow_add_r by lia. nia.
  - rewrite Z_mod_same_full. reflexivity.
  - f_equal; lia.
Qed.

Lemma F_field_th : field_theory f0 f1 fadd fmul fsub fopp fdiv finv eq.
Proof.
  constructor.
  - exact F_ring_th.
  - exact F_1_neq_0.
  - reflexivity.
  - exact finv_spec.
Qed.

Lemma Feqb_spec : forall x y, reflect (x = y) (Feqb x y).
Proof.
  intros x y; unfold Feqb. destruct (Z.eqb_spec (fval x) (fval y)) as [H|H]; constructor.
  - apply F_ext; exact H.
  - intros ->; apply H; reflexivity.
Qed.
Lemma Feqb_eq : forall x y, Feqb x y = true <-> x = y.
Proof. intros; destruct (Feqb_spec x y); split; congruence. Qed.
Lemma Feqb_refl : forall x, Feqb x x = true.
Proof. intros; apply Feqb_eq; reflexivity. Qed.
Lemma Feq_dec : forall x y : F, {x = y} + {x <> y}.
Proof. intros; destruct (Feqb_spec x y); [left|right]; assumption. Qed.

Lemma fval_f0 : fval f0 = 0.
Proof. reflexivity. Qed.
Lemma fval_f1 : fval f1 = 1.
Proof. simpl. pose proof pp_gt1. apply Z.mod_small; lia. Qed.

Lemma fmul_integral : forall x y, fmul x y = f0 -> x = f0 \/ y = f0.
Proof.
  intros x y H. apply (f_equal fval) in H. simpl in H.
  apply Z.mod_divide in H; [|pose proof pp_gt1; lia].
  apply prime_mult in H; [|apply pp_prime].
  pose proof (fval_range x) as Hx. pose proof (fval_range y) as Hy.
  destruct H as [H|H]; [left|right]; apply F_ext; rewrite fval_f0;
    (destruct H as [k Hk]; destruct (Z.eq_dec k 0) as [->|]; [lia|nia]).
Qed.

End FieldDef.

Declare Scope F_scope.
Delimit Scope F_scope with F.
Bind Scope F_scope with F.
Infix "+" := fadd : F_scope.
Infix "*" := fmul : F_scope.
Infix "-" := fsub : F_scope.
Infix "/" := fdiv : F_scope.
Notation "- x" := (fopp x) : F_scope.
Notation "0" := f0 : F_scope.
Notation "1" := f1 : F_scope.
