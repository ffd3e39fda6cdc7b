(** C37: the bound tracking operations of the field, for every prime field.
    The unit of the specification is the integer: an integer is uniquely representable when it is the value of a bit
    string of length (bits of the modulus - 1); two different such strings never denote the same field element. *)
From Coq Require Import ZArith NArith List Bool Lia.
From Verif Require Import PField IR Interp Bits UintOpt UintOptProofs Primality.
Import ListNotations.
Open Scope Z_scope.

(** specification *)
Definition representable {PF : PrimeField} (n : Z) : Prop := exists bs, length bs = (required_bits - 1)%nat /\ bv bs = n.

Lemma representable_iff : forall {PF : PrimeField} n, representable n <-> 0 <= n <= mu.
Proof.
  intros PF n. unfold representable, mu. split.
  - intros [bs [<- <-]]. pose proof (bv_range bs). lia.
  - intros H. exists (bits_be (required_bits - 1) n). rewrite bits_be_length, bv_bits_be. split; [reflexivity|]. apply Z.mod_small. lia.
Qed.

(** The representation is unique, also modulo the field modulus. *)
Theorem C37_representation_unique : forall (PF : PrimeField) (a b : list bool),
  length a = (required_bits - 1)%nat -> length b = (required_bits - 1)%nat -> of_Z (bv a) = of_Z (bv b) -> a = b.
Proof.
  intros PF a b La Lb E. apply bv_inj; [congruence|]. apply (f_equal fval) in E.
  pose proof (bv_range a). pose proof (bv_range b). rewrite La in *. rewrite Lb in *. pose proof required_bits_bounds.
  rewrite !fval_of_Z_small in E by lia. exact E.
Qed.

Definition exact_op {PF : PrimeField} (op : F -> F -> option (option F)) (zop : Z -> Z -> Z) : Prop := forall a b : F,
  (op a b = None <-> ~ (representable (fval a) /\ representable (fval b))) /\
  (forall m, op a b = Some (Some m) <-> representable (fval a) /\ representable (fval b) /\ representable (zop (fval a) (fval b)) /\ fval m = zop (fval a) (fval b)) /\
  (op a b = Some None <-> representable (fval a) /\ representable (fval b) /\ ~ representable (zop (fval a) (fval b))).

Lemma exact_intro : forall {PF : PrimeField} op zop, (forall a b, 0 <= a -> 0 <= b -> 0 <= zop a b) ->
  (forall a b : F, ~ (fval a <= mu /\ fval b <= mu) -> op a b = None) ->
  (forall a b, fval a <= mu -> fval b <= mu -> (exists m, op a b = Some (Some m) /\ fval m = zop (fval a) (fval b) /\ fval m <= mu) \/ (op a b = Some None /\ mu < zop (fval a) (fval b))) ->
  exact_op op zop.
Proof.
  intros PF op zop Hz Hn Hs a b. rewrite !representable_iff. pose proof (fval_range a) as Ra. pose proof (fval_range b) as Rb.
  pose proof (Hz (fval a) (fval b) ltac:(lia) ltac:(lia)) as Hz'.
  destruct (Z_le_dec (fval a) mu) as [La|La]; [destruct (Z_le_dec (fval b) mu) as [Lb|Lb]|].
  - destruct (Hs a b La Lb) as [[m [E [V L]]]|[E L]]; rewrite E.
    + split; [split; [discriminate|intros X; exfalso; apply X; lia]|]. split.
      * intros m'. rewrite ?representable_iff. split; [intros X; injection X as <-; split; [lia|]; split; [lia|]; split; [rewrite <- V; pose proof (fval_range m); lia|exact V]|]. intros [_ [_ [_ V']]]. do 2 f_equal. apply F_ext. congruence.
      * rewrite ?representable_iff. split; [discriminate|]. intros [_ [_ X]]. exfalso. apply X. lia.
    + split; [split; [discriminate|intros X; exfalso; apply X; lia]|]. split.
      * intros m'. rewrite ?representable_iff. split; [discriminate|]. intros [_ [_ [X _]]]. lia.
      * rewrite ?representable_iff. split; [intros _; lia|reflexivity].
  - rewrite Hn by lia. split; [split; [intros _ X; lia|reflexivity]|]. split; [intros m; rewrite ?representable_iff; split; [discriminate|lia]|rewrite ?representable_iff; split; [discriminate|lia]].
  - rewrite Hn by lia. split; [split; [intros _ X; lia|reflexivity]|]. split; [intros m; rewrite ?representable_iff; split; [discriminate|lia]|rewrite ?representable_iff; split; [discriminate|lia]].
Qed.

(** checked_add returns the exact integer sum iff it is representable, None if it is not, and panics exactly on operands
    that are not representable themselves. *)
Theorem C37_checked_add : forall (PF : PrimeField), exact_op checked_add Z.add.
Proof.
  intros PF. apply exact_intro; [intros; lia| |apply checked_add_ok]. intros a b H. unfold checked_add.
  destruct (Z.leb_spec (fval a) mu); [|reflexivity]. destruct (Z.leb_spec (fval b) mu); [lia|reflexivity].
Qed.
Theorem C37_checked_mul : forall (PF : PrimeField), exact_op checked_mul Z.mul.
Proof.
  intros PF. apply exact_intro; [intros; nia| |apply checked_mul_ok]. intros a b H. unfold checked_mul.
  destruct (Z.leb_spec (fval a) mu); [|reflexivity]. destruct (Z.leb_spec (fval b) mu); [lia|reflexivity].
Qed.

(** The three outcomes all happen, on the field of bn254. *)
Definition show37 (r : option (option (@F bn254))) : option (option Z) := option_map (option_map fval) r.
Example C37_sum : show37 (@checked_add bn254 (of_Z (2 ^ 252)) (of_Z 5)) = Some (Some (2 ^ 252 + 5)).
Proof. vm_compute. reflexivity. Qed.
Example C37_overflow : show37 (@checked_mul bn254 (of_Z (2 ^ 252)) (of_Z 2)) = Some None.
Proof. vm_compute. reflexivity. Qed.
Example C37_panic : show37 (@checked_add bn254 (of_Z (2 ^ 253)) (of_Z 5)) = None.
Proof. vm_compute. reflexivity. Qed.
