(** Byte strings, little-endian integers and readers.
    Models the std::io contract used by the codecs of zokrates_ast/src/ir/{witness,serialize}.rs: [write_all] appends the bytes,
    [read_exact] takes exactly n bytes or fails ([None]) when fewer are left; integers are written by to_le_bytes /
    byteorder's LittleEndian. A byte is an integer in [0, 256). *)
From Coq Require Import ZArith List Bool Lia.
From Verif Require Import PField.
Import ListNotations.
Open Scope Z_scope.

Definition isbyte (b : Z) : Prop := 0 <= b < 256.

(** the n least significant base-256 digits, least significant first *)
Fixpoint le (n : nat) (x : Z) : list Z := match n with O => [] | S k => x mod 256 :: le k (x / 256) end.
Fixpoint le_val (bs : list Z) : Z := match bs with [] => 0 | b :: r => b + 256 * le_val r end.

Lemma le_length : forall n x, length (le n x) = n.
Proof. induction n as [|n IH]; intros x; cbn [le length]; [reflexivity|]. rewrite IH. reflexivity. Qed.
Lemma le_bytes : forall n x, Forall isbyte (le n x).
Proof. induction n as [|n IH]; intros x; cbn [le]; constructor; [|apply IH]. unfold isbyte. apply Z.mod_pos_bound. lia. Qed.
Lemma le_val_le : forall n x, le_val (le n x) = x mod 256 ^ Z.of_nat n.
Proof.
  induction n as [|n IH]; intros x; cbn [le le_val]; [rewrite Z.mod_1_r; reflexivity|].
  rewrite IH, Nat2Z.inj_succ, Z.pow_succ_r by lia. rewrite Z.rem_mul_r; [reflexivity|lia|]. apply Z.pow_pos_nonneg; lia.
Qed.
Lemma le_val_small : forall n x, 0 <= x < 256 ^ Z.of_nat n -> le_val (le n x) = x.
Proof. intros n x H. rewrite le_val_le. apply Z.mod_small. exact H. Qed.
Lemma le_val_range : forall bs, Forall isbyte bs -> 0 <= le_val bs < 256 ^ Z.of_nat (length bs).
Proof.
  induction bs as [|b bs IH]; intros H; cbn [le_val length]; [rewrite Z.pow_0_r; lia|]. inversion H as [|? ? Hb Hr]; subst.
  specialize (IH Hr). unfold isbyte in Hb. rewrite Nat2Z.inj_succ, Z.pow_succ_r by lia. lia.
Qed.
Lemma le_le_val : forall bs, Forall isbyte bs -> le (length bs) (le_val bs) = bs.
Proof.
  induction bs as [|b bs IH]; intros H; cbn [le_val length le]; [reflexivity|]. inversion H as [|? ? Hb Hr]; subst. unfold isbyte in Hb.
  replace (b + 256 * le_val bs) with (b + le_val bs * 256) by lia. rewrite Z.mod_add by lia. rewrite Z.mod_small by lia.
  rewrite Z.div_add by lia. rewrite Z.div_small by lia. rewrite Z.add_0_l, IH by exact Hr. reflexivity.
Qed.

(** ** Readers: the rest of the stream after the value, or None *)
Definition reader (A : Type) := list Z -> option (A * list Z).
Definition rret {A} (a : A) : reader A := fun bs => Some (a, bs).
Definition rfail {A} : reader A := fun _ => None.
Definition rbind {A B} (r : reader A) (f : A -> reader B) : reader B :=
  fun bs => match r bs with Some (a, rest) => f a rest | None => None end.
(** std::io::Read::read_exact *)
Fixpoint read_exact (n : nat) : reader (list Z) :=
  match n with
  | O => rret []
  | S k => fun bs => match bs with [] => None | b :: r => match read_exact k r with Some (l, rest) => Some (b :: l, rest) | None => None end end
  end.
Definition read_le (n : nat) : reader Z := rbind (read_exact n) (fun l => rret (le_val l)).
(** two's complement: isize::from_le_bytes *)
Definition sign (n : nat) (x : Z) : Z := if x <? 2 ^ (8 * Z.of_nat n - 1) then x else x - 256 ^ Z.of_nat n.
Definition read_sle (n : nat) : reader Z := rbind (read_le n) (fun x => rret (sign n x)).

(** A reader is stable when reading more input does not change what was already read; every reader that never looks for the end of
    the stream is. *)
Definition stable {A} (r : reader A) : Prop := forall bs a rest more, r bs = Some (a, rest) -> r (bs ++ more) = Some (a, rest ++ more).
Lemma stable_ret : forall A (a : A), stable (rret a).
Proof. intros A a bs x rest more H. unfold rret in *. injection H as <- <-. reflexivity. Qed.
Lemma stable_fail : forall A, stable (@rfail A).
Proof. intros A bs x rest more H. discriminate H. Qed.
Lemma stable_bind : forall A B (r : reader A) (f : A -> reader B), stable r -> (forall a, stable (f a)) -> stable (rbind r f).
Proof.
  intros A B r f Hr Hf bs b rest more H. unfold rbind in *. destruct (r bs) as [[a r1]|] eqn:E; [|discriminate H].
  rewrite (Hr _ _ _ more E). apply Hf. exact H.
Qed.
Lemma stable_read_exact : forall n, stable (read_exact n).
Proof.
  induction n as [|n IH]; intros bs a rest more H; cbn [read_exact] in *; [apply stable_ret; exact H|].
  destruct bs as [|b bs]; [discriminate H|]. destruct (read_exact n bs) as [[l r]|] eqn:E; [|discriminate H]. injection H as <- <-.
  cbn [app]. rewrite (IH _ _ _ more E). reflexivity.
Qed.
Lemma stable_read_le : forall n, stable (read_le n).
Proof. intros n. apply stable_bind; [apply stable_read_exact|]. intros; apply stable_ret. Qed.
Lemma stable_read_sle : forall n, stable (read_sle n).
Proof. intros n. apply stable_bind; [apply stable_read_le|]. intros; apply stable_ret. Qed.

Lemma read_exact_app : forall n l rest, length l = n -> read_exact n (l ++ rest) = Some (l, rest).
Proof.
  induction n as [|n IH]; intros l rest H; destruct l as [|b l]; try discriminate H; cbn [read_exact app]; [reflexivity|].
  rewrite IH by (cbn [length] in H; lia). reflexivity.
Qed.
Lemma read_exact_inv : forall n bs l rest, read_exact n bs = Some (l, rest) -> bs = l ++ rest /\ length l = n.
Proof.
  induction n as [|n IH]; intros bs l rest H; cbn [read_exact] in H; [injection H as <- <-; split; reflexivity|].
  destruct bs as [|b bs]; [discriminate H|]. destruct (read_exact n bs) as [[l' r]|] eqn:E; [|discriminate H]. injection H as <- <-.
  destruct (IH _ _ _ E) as [-> <-]. split; reflexivity.
Qed.
Lemma read_le_app : forall n x rest, 0 <= x < 256 ^ Z.of_nat n -> read_le n (le n x ++ rest) = Some (x, rest).
Proof.
  intros n x rest H. unfold read_le, rbind. rewrite read_exact_app by apply le_length. unfold rret. rewrite le_val_small by exact H. reflexivity.
Qed.
(** isize::to_le_bytes is [le n x] for negative x too (the digits of x mod 256^n) *)
Lemma sign_mod : forall n x, (0 < n)%nat -> - 2 ^ (8 * Z.of_nat n - 1) <= x < 2 ^ (8 * Z.of_nat n - 1) -> sign n (x mod 256 ^ Z.of_nat n) = x.
Proof.
  intros n x Hn H. unfold sign. set (h := 2 ^ (8 * Z.of_nat n - 1)) in *.
  assert (E : 256 ^ Z.of_nat n = 2 * h).
  { unfold h. change 256 with (2 ^ 8). rewrite <- Z.pow_mul_r by lia. rewrite <- Z.pow_succ_r by lia. f_equal. lia. }
  rewrite E. destruct (Z_lt_le_dec x 0) as [L|L].
  - replace (x mod (2 * h)) with (x + 2 * h).
    + destruct (x + 2 * h <? h) eqn:C; [apply Z.ltb_lt in C; lia|lia].
    + rewrite <- (Z.mod_add x 1 (2 * h)) by lia. rewrite Z.mod_small by lia. lia.
  - rewrite Z.mod_small by lia. destruct (x <? h) eqn:C; [reflexivity|apply Z.ltb_ge in C; lia].
Qed.
Lemma read_sle_app : forall n x rest, (0 < n)%nat -> - 2 ^ (8 * Z.of_nat n - 1) <= x < 2 ^ (8 * Z.of_nat n - 1) -> read_sle n (le n x ++ rest) = Some (x, rest).
Proof.
  intros n x rest Hn H. unfold read_sle, read_le, rbind. rewrite read_exact_app by apply le_length. unfold rret. rewrite le_val_le, sign_mod by assumption. reflexivity.
Qed.

(** Round trip plus stability means that no strict prefix is accepted. *)
Lemma prefix_rejected : forall A (r : reader A) bs a, stable r -> r bs = Some (a, []) -> forall pre suf, bs = pre ++ suf -> suf <> [] -> r pre = None.
Proof.
  intros A r bs a Hs H pre suf E Hn. destruct (r pre) as [[a' rest]|] eqn:P; [|reflexivity]. exfalso.
  pose proof (Hs _ _ _ suf P) as X. rewrite <- E, H in X. injection X as _ X. symmetry in X. apply app_eq_nil in X. destruct X as [_ X]. exact (Hn X).
Qed.

(** ** Field elements *)
Section FieldBytes.
Context {PF : PrimeField}.
(** ark_ff FpParameters::MODULUS_BITS: get_required_bits, zokrates_field/src/lib.rs:262-265 *)
Definition mod_bits : Z := Z.log2 pp + 1.
(** ark_ff's ToBytes for Fp writes the 64-bit limbs of the representative: 8 bytes per limb *)
Definition limb_bytes : nat := Z.to_nat (8 * ((mod_bits + 63) / 64)).
(** ark_serialize's CanonicalSerialize writes ceil(bits / 8) bytes (the six fields have spare bits, no flags are appended) *)
Definition canon_bytes : nat := Z.to_nat ((mod_bits + 7) / 8).
Lemma mod_bits_pos : 0 < mod_bits.
Proof. unfold mod_bits. pose proof (Z.log2_nonneg pp). lia. Qed.
Lemma pp_bits : pp < 2 ^ mod_bits.
Proof. unfold mod_bits. pose proof pp_gt1. apply Z.log2_spec. lia. Qed.
Lemma fits : forall n x, mod_bits <= 8 * Z.of_nat n -> 0 <= fval (x : F) < 256 ^ Z.of_nat n.
Proof.
  intros n x H. pose proof (fval_range x). pose proof pp_bits. change 256 with (2 ^ 8). rewrite <- Z.pow_mul_r by lia.
  assert (2 ^ mod_bits <= 2 ^ (8 * Z.of_nat n)) by (apply Z.pow_le_mono_r; lia). lia.
Qed.
Lemma limb_fits : forall x : F, 0 <= fval x < 256 ^ Z.of_nat limb_bytes.
Proof. intros x. apply fits. unfold limb_bytes. pose proof mod_bits_pos. rewrite Z2Nat.id; [|apply Z.mul_nonneg_nonneg; [lia|apply Z.div_pos; lia]]. pose proof (Z.div_mod (mod_bits + 63) 64). pose proof (Z.mod_pos_bound (mod_bits + 63) 64). lia. Qed.
Lemma canon_fits : forall x : F, 0 <= fval x < 256 ^ Z.of_nat canon_bytes.
Proof. intros x. apply fits. unfold canon_bytes. pose proof mod_bits_pos. rewrite Z2Nat.id; [|apply Z.div_pos; lia]. pose proof (Z.div_mod (mod_bits + 7) 8). pose proof (Z.mod_pos_bound (mod_bits + 7) 8). lia. Qed.

(** ark_ff's from_repr: only canonical representatives are accepted *)
Definition from_repr (x : Z) : option F := if (0 <=? x) && (x <? pp) then Some (of_Z x) else None.
Lemma from_repr_fval : forall x : F, from_repr (fval x) = Some x.
Proof.
  intros x. unfold from_repr. pose proof (fval_range x) as H. destruct (0 <=? fval x) eqn:A; [|apply Z.leb_gt in A; lia].
  destruct (fval x <? pp) eqn:B; [|apply Z.ltb_ge in B; lia]. cbn [andb]. rewrite of_Z_fval. reflexivity.
Qed.
Lemma from_repr_inv : forall x (a : F), from_repr x = Some a -> 0 <= x < pp /\ fval a = x.
Proof.
  intros x a H. unfold from_repr in H. destruct (0 <=? x) eqn:A; [|discriminate H]. destruct (x <? pp) eqn:B; [|discriminate H]. cbn [andb] in H. injection H as <-.
  apply Z.leb_le in A. apply Z.ltb_lt in B. split; [lia|]. apply fval_of_Z_small. lia.
Qed.
(** zokrates_field/src/lib.rs:221-232 Field::write, Field::read *)
Definition write_field (x : F) : list Z := le limb_bytes (fval x).
Definition read_field : reader F := rbind (read_le limb_bytes) (fun x => match from_repr x with Some a => rret a | None => rfail end).
Lemma read_write_field : forall x rest, read_field (write_field x ++ rest) = Some (x, rest).
Proof.
  intros x rest. unfold read_field, write_field, rbind. rewrite read_le_app by apply limb_fits. rewrite from_repr_fval. reflexivity.
Qed.
Lemma stable_read_field : stable read_field.
Proof. apply stable_bind; [apply stable_read_le|]. intros x. destruct (from_repr x); [apply stable_ret|apply stable_fail]. Qed.
(** a value that is not below the modulus is rejected *)
Lemma read_field_range : forall bs x rest, read_field bs = Some (x, rest) -> exists l, bs = l ++ rest /\ length l = limb_bytes /\ le_val l = fval x.
Proof.
  intros bs x rest H. unfold read_field, read_le, rbind in H. destruct (read_exact limb_bytes bs) as [[l r]|] eqn:E; [|discriminate H].
  destruct (read_exact_inv _ _ _ _ E) as [-> L]. unfold rret in H. destruct (from_repr (le_val l)) as [a|] eqn:R; [|discriminate H]. injection H as <- <-.
  destruct (from_repr_inv _ _ R) as [_ V]. exists l. auto.
Qed.
End FieldBytes.
