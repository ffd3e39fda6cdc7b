(** C28: field elements as strings. *)
From Coq Require Import String Ascii.
From Coq Require Import ZArith List Bool Lia.
From Verif Require Import PField Concrete Primality Fields Str.
Import ListNotations.
Open Scope Z_scope.

(** Printing then parsing is the identity. *)
Theorem C28_print_parse : forall (PF : PrimeField) (x : F), try_from_dec_str (to_dec_string x) = Some x.
Proof. intros PF x. pose proof (fval_range x). unfold try_from_dec_str, to_dec_string. rewrite ark_dec by lia. f_equal. apply of_Z_fval. Qed.
(** What is printed is the decimal numeral of the value in [0, p). *)
Theorem C28_print : forall (PF : PrimeField) (x : F), denotes 10 (to_dec_string x) (fval x) /\ 0 <= fval x < pp.
Proof. intros PF x. split; [apply dec_string_denotes; pose proof (fval_range x); lia|apply fval_range]. Qed.
(** Exactly which strings the decimal parser accepts, and as what: the decimal numerals without leading zero, modulo p. *)
Theorem C28_decimal_exact : forall (PF : PrimeField) s (x : F), try_from_dec_str s = Some x <->
  exists n, denotes 10 s n /\ (s = "0"%string \/ forall r, s <> String "0" r) /\ fval x = n mod pp.
Proof.
  intros PF s x. unfold try_from_dec_str. rewrite ark_from_str_spec. split.
  - intros [ds [A [B [C ->]]]]. exists (value 10 ds). split; [exists ds; repeat split; assumption|]. split; [|reflexivity]. destruct C as [C|C]; [right|left; exact C].
    intros r ->. cbn [digits] in B. change (digit 10 "0") with (Some 0) in B. destruct (digits 10 r); [|discriminate B]. injection B as <-. apply C. reflexivity.
  - intros [n [[ds [A [B D]]] [C E]]]. exists ds. split; [exact A|]. split; [exact B|]. split; [|apply F_ext; rewrite fval_of_Z, D; exact E].
    destruct C as [C|C]; [right; exact C|left]. destruct s as [|c r]; [contradiction|]. cbn [digits] in B. destruct (digit 10 c) as [d|] eqn:Dc; [|discriminate B]. destruct (digits 10 r); [|discriminate B]. injection B as <-. cbn [hd]. intros ->.
    apply (C r). f_equal. unfold digit in Dc.
    assert (K : code c = 48).
    { destruct ((48 <=? code c) && (code c <=? 57)) eqn:E1; [destruct (code c - 48 <? 10); [|discriminate Dc]; injection Dc; lia|].
      destruct ((97 <=? code c) && (code c <=? 122)) eqn:E2; [destruct (Z.ltb_spec (code c - 87) 10); [|discriminate Dc]; injection Dc; apply andb_prop in E2 as [X _]; apply Z.leb_le in X; lia|].
      destruct ((65 <=? code c) && (code c <=? 90)) eqn:E3; [destruct (Z.ltb_spec (code c - 55) 10); [|discriminate Dc]; injection Dc; apply andb_prop in E3 as [X _]; apply Z.leb_le in X; lia|]. discriminate Dc. }
    unfold code in K. rewrite <- (ascii_N_embedding c). replace (N_of_ascii c) with 48%N by lia. reflexivity.
Qed.
(** A canonical numeral below the modulus is read as itself. *)
Theorem C28_below_modulus : forall (PF : PrimeField) s n, denotes 10 s n -> (s = "0"%string \/ forall r, s <> String "0" r) -> n < pp -> exists x : F, try_from_dec_str s = Some x /\ fval x = n.
Proof.
  intros PF s n H C L. exists (of_Z n). assert (0 <= n). { destruct H as [ds [_ [D <-]]]. apply value_nonneg; [lia|]. eapply Forall_impl; [|eapply digits_range; exact D]. cbn. intros; lia. }
  split; [|apply fval_of_Z_small; lia]. apply C28_decimal_exact. exists n. split; [exact H|]. split; [exact C|]. reflexivity.
Qed.
(** The parser with a radix (used for 0x numerals) does what the property asks for: the value if it is below the modulus, else an error. *)
Theorem C28_radix_exact : forall (PF : PrimeField) radix s (x : F), 1 < radix <= 36 -> (try_from_str radix s = Some x <->
  exists t n, signed s t /\ t <> EmptyString /\ (forall r, t <> String "_" r) /\ denotes radix (drop_ t) n /\ n < pp /\ fval x = n).
Proof.
  intros PF radix s x R. unfold try_from_str. assert (Nn : forall t n, denotes radix t n -> 0 <= n).
  { intros t n [ds [_ [D <-]]]. apply value_nonneg; [lia|]. eapply Forall_impl; [|eapply digits_range; exact D]. cbn. intros; lia. }
  split.
  - intros H. destruct (biguint_parse radix s) as [n|] eqn:B; [|discriminate H]. apply biguint_spec in B as [t [A [C [D E]]]]; [|exact R]. unfold try_from_biguint in H. destruct (Z.leb_spec n (pp - 1)); [|discriminate H].
    rewrite ark_dec in H by (eapply Nn; exact E). injection H as <-. exists t, n. repeat (split; [assumption|]). split; [lia|]. apply fval_of_Z_small. split; [eapply Nn; exact E|lia].
  - intros [t [n [A [C [D [E [L V]]]]]]]. assert (B : biguint_parse radix s = Some n) by (apply biguint_spec; [exact R|]; exists t; repeat (split; [assumption|]); assumption). rewrite B.
    unfold try_from_biguint. destruct (Z.leb_spec n (pp - 1)); [|lia]. rewrite ark_dec by (eapply Nn; exact E). f_equal. apply F_ext. rewrite V. apply fval_of_Z_small. split; [eapply Nn; exact E|lia].
Qed.
(** The compact form denotes the representative of smallest absolute value. *)
Theorem C28_compact : forall (PF : PrimeField) (x : F), exists n, - (pp / 2) <= n /\ n <= (pp - 1) / 2 /\ of_Z n = x /\
  ((0 <= n /\ denotes 10 (to_compact_dec_string x) n) \/ (n < 0 /\ exists s, denotes 10 s (- n) /\ to_compact_dec_string x = ("(-" ++ s ++ ")")%string)).
Proof.
  intros PF x. pose proof (fval_range x) as R. pose proof pp_gt1. unfold to_compact_dec_string. pose proof (Z.div_mod pp 2 ltac:(lia)). pose proof (Z.mod_pos_bound pp 2 ltac:(lia)). pose proof (Z.div_mod (pp - 1) 2 ltac:(lia)). pose proof (Z.mod_pos_bound (pp - 1) 2 ltac:(lia)).
  destruct (Z.leb_spec (fval x) ((pp - 1) / 2)).
  - exists (fval x). split; [lia|]. split; [lia|]. split; [apply of_Z_fval|]. left. split; [lia|]. apply dec_string_denotes. lia.
  - exists (fval x - pp). split; [lia|]. split; [lia|]. split.
    + apply F_ext. rewrite fval_of_Z. rewrite <- (Z.mod_add _ 1) by lia. rewrite Z.mod_small; lia.
    + right. split; [lia|]. exists (to_dec_string (fadd (fsub (of_Z (-1)) x) f1)). split; [|reflexivity].
      assert (E : fval (fadd (fsub (of_Z (-1)) x) f1) = - (fval x - pp)).
      { unfold fadd, fsub. rewrite !fval_of_Z, fval_f1. rewrite Zplus_mod_idemp_l. replace ((-1) mod pp) with (pp - 1).
        - replace (pp - 1 - fval x + 1) with (pp - fval x) by lia. rewrite Z.mod_small; lia.
        - rewrite <- (Z.mod_add (-1) 1) by lia. rewrite Z.mod_small; lia. }
      unfold to_dec_string. rewrite E. apply dec_string_denotes. lia.
Qed.
Print Assumptions C28_compact.
(** REFUTED: a decimal numeral at or above the modulus is accepted, over every field: p is read as 0, so `compute-witness -a p` runs with 0. *)
Theorem C28_overflow_refuted : forall PF : PrimeField, exists s n (x : F), denotes 10 s n /\ n >= pp /\ try_from_dec_str s = Some x /\ fval x <> n.
Proof.
  intros PF. pose proof pp_gt1. exists (dec_string pp), pp, f0. split; [apply dec_string_denotes; lia|]. split; [lia|]. split; [|rewrite fval_f0; lia].
  unfold try_from_dec_str. rewrite ark_dec by lia. f_equal. apply F_ext. rewrite fval_of_Z, fval_f0. apply Z.mod_same. lia.
Qed.
(** REFUTED: numerals with a leading zero denote an integer below the modulus and are rejected. *)
Theorem C28_leading_zero_refuted : exists s n, denotes 10 s n /\ n < @pp bn254 /\ @try_from_dec_str bn254 s = None.
Proof. exists "010"%string, 10. split; [exists [0; 1; 0]; repeat split; discriminate|]. split; [reflexivity|vm_compute; reflexivity]. Qed.
(** Examples *)
Example C28_example1 : option_map fval (@try_from_dec_str bn254 "21888242871839275222246405745257275088548364400416034343698204186575808495616") = Some (@pp bn254 - 1).
Proof. vm_compute. reflexivity. Qed.
Example C28_example2 : option_map fval (@try_from_dec_str bn254 "21888242871839275222246405745257275088548364400416034343698204186575808495618") = Some 1.
Proof. vm_compute. reflexivity. Qed.
Example C28_example3 : option_map fval (@try_from_str bn254 16 "+2_A") = Some 42 /\ option_map fval (@try_from_str bn254 16 "ffffffffffffffffffffffffffffffffffffffffffffffffffffffffffffffff") = None.
Proof. vm_compute. split; reflexivity. Qed.
Example C28_example4 : to_compact_dec_string (@of_Z bn254 (-5)) = "(-5)"%string.
Proof. vm_compute. reflexivity. Qed.
