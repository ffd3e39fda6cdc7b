(** Concrete prime fields, used by the examples and refutations. *)
From Coq Require Import ZArith Znumtheory List Bool Lia.
From Verif Require Import PField.
Open Scope Z_scope.

(** Trial division. *)
Fixpoint no_divisor (fuel : nat) (d n : Z) : bool :=
  match fuel with
  | O => true
  | S k => negb (n mod d =? 0) && no_divisor k (d + 1) n
  end.
Definition is_prime (n : Z) : bool := (1 <? n) && no_divisor (Z.to_nat (n - 2)) 2 n.

Lemma no_divisor_spec : forall fuel d n x, no_divisor fuel d n = true -> d <= x < d + Z.of_nat fuel -> n mod x <> 0.
Proof.
  induction fuel as [|k IH]; intros d n x H Hx; [lia|].
  cbn [no_divisor] in H. apply andb_prop in H. destruct H as [H1 H2].
  destruct (Z.eq_dec x d) as [->|].
  - apply negb_true_iff, Z.eqb_neq in H1. auto.
  - apply (IH (d + 1) n x H2). lia.
Qed.
Lemma is_prime_spec : forall n, is_prime n = true -> prime n.
Proof.
  unfold is_prime. intros n H. apply andb_prop in H. destruct H as [H1 H2]. apply Z.ltb_lt in H1.
  apply prime_intro; [auto|]. intros x Hx. 
  assert (Hg : (Z.gcd x n | n)) by apply Z.gcd_divide_r.
  assert (Hg' : (Z.gcd x n | x)) by apply Z.gcd_divide_l.
  pose proof (Z.gcd_nonneg x n) as Hnn.
  assert (Hle : Z.gcd x n <= x) by (apply Z.divide_pos_le; [lia|auto]).
  assert (H0 : Z.gcd x n <> 0) by (intros E; rewrite E in Hg'; destruct Hg' as [k Hk]; lia).
  apply Zgcd_1_rel_prime. 
  destruct (Z.eq_dec (Z.gcd x n) 1) as [|Hne]; auto. exfalso.
  apply (no_divisor_spec _ _ _ (Z.gcd x n) H2); [lia|].
  apply Z.mod_divide; auto.
Qed.

Definition pf97 : PrimeField := {| pp := 97; pp_prime := is_prime_spec 97 eq_refl |}.
Definition pf7 : PrimeField := {| pp := 7; pp_prime := is_prime_spec 7 eq_refl |}.
Definition pf1009 : PrimeField := {| pp := 1009; pp_prime := is_prime_spec 1009 eq_refl |}.
