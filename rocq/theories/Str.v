(** Numerals as strings: how field elements and machine integers are printed and parsed.
    Models zokrates_field/src/lib.rs:235-237, 261-285, 325-329, 376-389 and the contracts of the library functions they call.
    A string is its list of UTF-8 bytes ([string]); every byte of a non-ASCII character is above 127 and is a digit of no radix, so
    reading bytes instead of characters makes no difference. *)
From Coq Require Import String Ascii.
From Coq Require Import ZArith List Bool Lia.
From Verif Require Import PField.
Import ListNotations.
Open Scope Z_scope.

(** ** Specification: the digits and the value of a numeral *)
Definition code (c : ascii) : Z := Z.of_N (N_of_ascii c).
(** 0-9, then a-z, or A-Z, for 10 to 35 *)
Definition digit (radix : Z) (c : ascii) : option Z :=
  let n := code c in
  let d := if (48 <=? n) && (n <=? 57) then n - 48 else if (97 <=? n) && (n <=? 122) then n - 87 else if (65 <=? n) && (n <=? 90) then n - 55 else 255 in
  if d <? radix then Some d else None.
Fixpoint digits (radix : Z) (s : string) : option (list Z) :=
  match s with
  | EmptyString => Some []
  | String c r => match digit radix c, digits radix r with Some d, Some l => Some (d :: l) | _, _ => None end
  end.
(** the value of a list of digits, most significant first *)
Definition value (radix : Z) (ds : list Z) : Z := fold_left (fun acc d => acc * radix + d) ds 0.
(** [denotes radix s n]: the string is a non-empty list of digits with value n *)
Definition denotes (radix : Z) (s : string) (n : Z) : Prop := exists ds, s <> EmptyString /\ digits radix s = Some ds /\ value radix ds = n.

(** ** Printing *)
Definition digit_char (d : Z) : ascii := ascii_of_N (Z.to_N (if d <? 10 then d + 48 else d + 87)).
(** the digits of x, most significant first, in front of acc *)
Fixpoint to_digits (fuel : nat) (radix x : Z) (acc : list Z) : list Z :=
  match fuel with
  | O => acc
  | Datatypes.S k => let acc' := x mod radix :: acc in if x / radix =? 0 then acc' else to_digits k radix (x / radix) acc'
  end.
Definition num_digits (radix x : Z) : list Z := to_digits (Z.to_nat (Z.log2 x + 1)) radix x [].
Fixpoint of_digits (ds : list Z) : string := match ds with [] => EmptyString | d :: r => String (digit_char d) (of_digits r) end.
(** num_bigint's Display for BigUint: the shortest decimal numeral *)
Definition dec_string (x : Z) : string := of_digits (num_digits 10 x).
(** Rust's {:#0Nx}: 0x, then hexadecimal digits padded with zeros to N - 2 digits *)
Definition hex_string (width : nat) (x : Z) : string :=
  let ds := num_digits 16 x in String "0"%char (String "x"%char (of_digits (repeat 0 (width - length ds) ++ ds))).

Section FieldStrings.
Context {PF : PrimeField}.
(** zokrates_field/src/lib.rs:325-329 Display, :235-237 to_dec_string *)
Definition to_dec_string (x : F) : string := dec_string (fval x).
(** ark_ff 0.3 FromStr for prime fields: "0", or a non-empty list of decimal digits that does not begin with 0, evaluated in the field *)
Definition ark_from_str (s : string) : option F :=
  match s with
  | EmptyString => None
  | String c r =>
      if String.eqb s "0" then Some f0 else
      match digits 10 s with
      | Some (0 :: _) => None
      | Some ds => Some (fold_left (fun acc d => fadd (fmul acc (of_Z 10)) (of_Z d)) ds f0)
      | None => None
      end
  end.
(** :261-267 *)
Definition try_from_dec_str (s : string) : option F := ark_from_str s.
(** num_bigint 0.2 BigUint::parse_bytes: an optional +, digits of the radix with underscores that are skipped, not in front *)
Fixpoint digits_ (radix : Z) (s : string) : option (list Z) :=
  match s with
  | EmptyString => Some []
  | String c r => if Ascii.eqb c "_" then digits_ radix r else match digit radix c, digits_ radix r with Some d, Some l => Some (d :: l) | _, _ => None end
  end.
Definition strip_plus (s : string) : string :=
  match s with
  | String "+" (String "+" r) => s
  | String "+" r => r
  | _ => s
  end.
Definition biguint_parse (radix : Z) (s : string) : option Z :=
  match strip_plus s with
  | EmptyString => None
  | String c r => if Ascii.eqb c "_" then None else match digits_ radix (String c r) with Some ds => Some (value radix ds) | None => None end
  end.
(** :376-389 TryFrom<BigUint>: values up to p - 1, through their decimal string *)
Definition try_from_biguint (x : Z) : option F := if x <=? pp - 1 then ark_from_str (dec_string x) else None.
(** :268-271 *)
Definition try_from_str (radix : Z) (s : string) : option F := match biguint_parse radix s with Some x => try_from_biguint x | None => None end.
(** :272-285 to_compact_dec_string *)
Definition to_compact_dec_string (x : F) : string :=
  if fval x <=? (pp - 1) / 2 then to_dec_string x
  else ("(-" ++ to_dec_string (fadd (fsub (of_Z (-1)) x) f1) ++ ")")%string.
End FieldStrings.

(** Rust's uN::from_str (radix 10) and uN::from_str_radix: an optional + before at least one digit; an overflow of uN is an error *)
Fixpoint checked_digits (radix : Z) (max : Z) (acc : Z) (s : string) : option Z :=
  match s with
  | EmptyString => Some acc
  | String c r => match digit radix c with
                  | None => None
                  | Some d => let acc' := acc * radix + d in if acc' <? max then checked_digits radix max acc' r else None
                  end
  end.
Definition uint_parse (radix : Z) (w : Z) (s : string) : option Z :=
  match s with
  | EmptyString => None
  | String "+" EmptyString => None
  | String "+" r => checked_digits radix (2 ^ w) 0 r
  | _ => checked_digits radix (2 ^ w) 0 s
  end.
(** str::trim_start_matches("0x"): every leading occurrence is removed *)
Fixpoint trim_0x (s : string) : string := match s with String "0" (String "x" r) => trim_0x r | _ => s end.

(** ** Digits *)
Lemma digit_range : forall radix c d, digit radix c = Some d -> 0 <= d < radix.
Proof.
  intros radix c d H. unfold digit in H. assert (N : 0 <= code c) by (unfold code; lia).
  destruct ((48 <=? code c) && (code c <=? 57)) eqn:E1.
  - apply andb_prop in E1 as [A _]. apply Z.leb_le in A. destruct (Z.ltb_spec (code c - 48) radix); [|discriminate H]. injection H as <-. lia.
  - destruct ((97 <=? code c) && (code c <=? 122)) eqn:E2.
    + apply andb_prop in E2 as [A _]. apply Z.leb_le in A. destruct (Z.ltb_spec (code c - 87) radix); [|discriminate H]. injection H as <-. lia.
    + destruct ((65 <=? code c) && (code c <=? 90)) eqn:E3.
      * apply andb_prop in E3 as [A _]. apply Z.leb_le in A. destruct (Z.ltb_spec (code c - 55) radix); [|discriminate H]. injection H as <-. lia.
      * destruct (Z.ltb_spec 255 radix); [|discriminate H]. injection H as <-. lia.
Qed.
Lemma digits_range : forall radix s ds, digits radix s = Some ds -> Forall (fun d => 0 <= d < radix) ds.
Proof.
  intros radix s. induction s as [|c s IH]; intros ds H; cbn [digits] in H; [injection H as <-; constructor|].
  destruct (digit radix c) as [d|] eqn:D; [|discriminate H]. destruct (digits radix s) as [l|]; [|discriminate H]. injection H as <-.
  constructor; [eapply digit_range; exact D|apply IH; reflexivity].
Qed.
Lemma digit_char_ok : forall radix d, 0 <= d < radix -> radix <= 16 -> digit radix (digit_char d) = Some d.
Proof.
  intros radix d H R. unfold digit, digit_char, code. rewrite N_ascii_embedding by (destruct (d <? 10); lia). rewrite Z2N.id by (destruct (d <? 10); lia).
  destruct (Z.ltb_spec d 10).
  - replace (48 <=? d + 48) with true by (symmetry; apply Z.leb_le; lia). replace (d + 48 <=? 57) with true by (symmetry; apply Z.leb_le; lia). cbn [andb].
    replace (d + 48 - 48) with d by lia. destruct (Z.ltb_spec d radix); [reflexivity|lia].
  - replace (d + 87 <=? 57) with false by (symmetry; apply Z.leb_gt; lia). rewrite andb_false_r.
    replace (97 <=? d + 87) with true by (symmetry; apply Z.leb_le; lia). replace (d + 87 <=? 122) with true by (symmetry; apply Z.leb_le; lia). cbn [andb].
    replace (d + 87 - 87) with d by lia. destruct (Z.ltb_spec d radix); [reflexivity|lia].
Qed.
Lemma digits_of_digits : forall radix ds, radix <= 16 -> Forall (fun d => 0 <= d < radix) ds -> digits radix (of_digits ds) = Some ds.
Proof.
  intros radix ds R H. induction H as [|d ds Hd _ IH]; cbn [of_digits digits]; [reflexivity|]. rewrite digit_char_ok by assumption. rewrite IH. reflexivity.
Qed.
(** ** Values *)
Lemma value_acc : forall radix ds acc, fold_left (fun acc d => acc * radix + d) ds acc = acc * radix ^ Z.of_nat (length ds) + value radix ds.
Proof.
  intros radix ds. induction ds as [|d ds IH]; intros acc; cbn [fold_left length]; [unfold value; cbn; lia|].
  unfold value. cbn [fold_left]. rewrite IH, (IH (0 * radix + d)). rewrite Nat2Z.inj_succ, Z.pow_succ_r by lia. ring.
Qed.
Lemma value_cons : forall radix d ds, value radix (d :: ds) = d * radix ^ Z.of_nat (length ds) + value radix ds.
Proof. intros radix d ds. unfold value at 1. cbn [fold_left]. rewrite value_acc. ring. Qed.
Lemma value_nonneg : forall radix ds, 0 <= radix -> Forall (fun d => 0 <= d) ds -> 0 <= value radix ds.
Proof.
  intros radix ds R H. induction H as [|d ds Hd _ IH]; [cbn; lia|]. rewrite value_cons. pose proof (Z.pow_nonneg radix (Z.of_nat (length ds)) R). nia.
Qed.
Lemma value_lt : forall radix ds, 1 < radix -> Forall (fun d => 0 <= d < radix) ds -> value radix ds < radix ^ Z.of_nat (length ds).
Proof.
  intros radix ds R H. induction H as [|d ds Hd Hs IH]; [cbn; lia|]. rewrite value_cons. cbn [length]. rewrite Nat2Z.inj_succ, Z.pow_succ_r by lia. 
  pose proof (Z.pow_pos_nonneg radix (Z.of_nat (length ds)) ltac:(lia) ltac:(lia)). nia.
Qed.
Lemma value_zeros : forall radix n ds, value radix (repeat 0 n ++ ds) = value radix ds.
Proof. intros radix n ds. induction n as [|n IH]; [reflexivity|]. cbn [repeat app]. rewrite value_cons, IH. lia. Qed.
(** a numeral read in a larger radix is larger: no decimal numeral that is too large becomes small when read as hexadecimal *)
Lemma value_mono : forall a b ds, 0 <= a <= b -> Forall (fun d => 0 <= d) ds -> value a ds <= value b ds.
Proof.
  intros a b ds R H. induction H as [|d ds Hd _ IH]; [cbn; lia|]. rewrite !value_cons. assert (a ^ Z.of_nat (length ds) <= b ^ Z.of_nat (length ds)) by (apply Z.pow_le_mono_l; lia). nia.
Qed.
Lemma to_digits_ok : forall fuel radix x acc, 1 < radix -> 0 <= x < 2 ^ Z.of_nat fuel -> (0 < fuel)%nat -> Forall (fun d => 0 <= d < radix) acc ->
  Forall (fun d => 0 <= d < radix) (to_digits fuel radix x acc) /\ value radix (to_digits fuel radix x acc) = x * radix ^ Z.of_nat (length acc) + value radix acc /\
  exists d r, to_digits fuel radix x acc = d :: r /\ (d = 0 -> x = 0 /\ r = acc).
Proof.
  induction fuel as [|fuel IH]; intros radix x acc R Hx Hf Ha; [lia|]. cbn [to_digits]. pose proof (Z.mod_pos_bound x radix ltac:(lia)) as Hm. pose proof (Z.div_mod x radix ltac:(lia)) as Hd.
  assert (Ha' : Forall (fun d => 0 <= d < radix) (x mod radix :: acc)) by (constructor; assumption).
  destruct (Z.eqb_spec (x / radix) 0) as [E|E].
  - split; [exact Ha'|]. rewrite value_cons. split; [rewrite E in Hd; lia|]. exists (x mod radix), acc. split; [reflexivity|]. intros Z0. rewrite E in Hd. split; [lia|reflexivity].
  - assert (Hq : 0 <= x / radix < 2 ^ Z.of_nat fuel).
    { split; [apply Z.div_pos; lia|]. apply Z.div_lt_upper_bound; [lia|]. rewrite Nat2Z.inj_succ, Z.pow_succ_r in Hx by lia. pose proof (Z.pow_pos_nonneg 2 (Z.of_nat fuel) ltac:(lia) ltac:(lia)). nia. }
    assert (Hf' : (0 < fuel)%nat) by (destruct fuel; [cbn in Hq; lia|lia]).
    destruct (IH radix (x / radix) (x mod radix :: acc) R Hq Hf' Ha') as [A [B [d [r [C D]]]]]. split; [exact A|]. split.
    + rewrite B, value_cons. cbn [length]. rewrite Nat2Z.inj_succ, Z.pow_succ_r by lia. nia.
    + exists d, r. split; [exact C|]. intros D0. destruct (D D0) as [D1 _]. contradiction.
Qed.
Lemma num_digits_ok : forall radix x, 1 < radix -> 0 <= x -> Forall (fun d => 0 <= d < radix) (num_digits radix x) /\ value radix (num_digits radix x) = x /\
  exists d r, num_digits radix x = d :: r /\ (d = 0 -> x = 0 /\ r = []).
Proof.
  intros radix x R H. unfold num_digits. pose proof (Z.log2_nonneg x). destruct (to_digits_ok (Z.to_nat (Z.log2 x + 1)) radix x [] R) as [A [B C]]; [|lia|constructor|].
  - rewrite Z2Nat.id by lia. split; [lia|]. destruct (Z.eq_dec x 0) as [->|N]; [apply Z.pow_pos_nonneg; lia|]. apply Z.log2_spec. lia.
  - split; [exact A|]. split; [rewrite B; cbn; lia|exact C].
Qed.
Lemma num_digits_length : forall radix x n, 1 < radix -> 0 <= x < radix ^ Z.of_nat n -> (0 < n)%nat -> (length (num_digits radix x) <= n)%nat.
Proof.
  intros radix x n R H Hn. destruct (num_digits_ok radix x R ltac:(lia)) as [A [B [d [r [C D]]]]]. rewrite C in *. cbn [length].
  destruct (Z.eq_dec d 0) as [->|N]; [destruct (D eq_refl) as [_ ->]; cbn; lia|].
  inversion A as [|? ? Hd Hr]; subst. rewrite value_cons in H.
  assert (0 <= value radix r) by (apply value_nonneg; [lia|]; eapply Forall_impl; [|exact Hr]; cbn; intros; lia).
  assert (L : radix ^ Z.of_nat (length r) < radix ^ Z.of_nat n) by (pose proof (Z.pow_pos_nonneg radix (Z.of_nat (length r)) ltac:(lia) ltac:(lia)); nia).
  apply Z.pow_lt_mono_r_iff in L; lia.
Qed.
Lemma dec_string_denotes : forall x, 0 <= x -> denotes 10 (dec_string x) x.
Proof.
  intros x H. destruct (num_digits_ok 10 x ltac:(lia) H) as [A [B [d [r [C _]]]]]. exists (num_digits 10 x). unfold dec_string. split; [rewrite C; cbn; discriminate|].
  split; [apply digits_of_digits; [lia|exact A]|exact B].
Qed.

Section FieldStringFacts.
Context {PF : PrimeField}.
Lemma fold_field : forall ds acc, fold_left (fun acc d => fadd (fmul acc (of_Z 10)) (of_Z d)) ds (of_Z acc) = of_Z (fold_left (fun acc d => acc * 10 + d) ds acc).
Proof. induction ds as [|d ds IH]; intros acc; cbn [fold_left]; [reflexivity|]. rewrite <- of_Z_mul, <- of_Z_add. apply IH. Qed.
(** the strings accepted: decimal numerals without leading zero; the result is their value modulo p *)
Lemma ark_from_str_spec : forall s x, ark_from_str s = Some x <-> exists ds, s <> EmptyString /\ digits 10 s = Some ds /\ (hd 0 ds <> 0 \/ s = "0"%string) /\ x = of_Z (value 10 ds).
Proof.
  intros s x. unfold ark_from_str. destruct s as [|c r]; [split; [discriminate|intros [ds [H _]]; contradiction]|].
  remember (String c r) as s eqn:Es. destruct (String.eqb_spec s "0") as [->|N].
  - split.
    + intros H. injection H as <-. exists [0]. repeat split; auto; discriminate.
    + intros [ds [_ [D [_ ->]]]]. cbn in D. injection D as <-. reflexivity.
  - destruct (digits 10 s) as [ds|] eqn:D.
    + assert (Hne : ds <> []). { intros ->. rewrite Es in D. cbn [digits] in D. destruct (digit 10 c); [|discriminate D]. destruct (digits 10 r); discriminate D. }
      destruct ds as [|d ds]; [contradiction|].
      assert (K : (exists ds0, s <> EmptyString /\ Some (d :: ds) = Some ds0 /\ (hd 0 ds0 <> 0 \/ s = "0"%string) /\ x = of_Z (value 10 ds0)) <-> d <> 0 /\ x = of_Z (value 10 (d :: ds))).
      { split; [intros [ds0 [_ [E0 [H1 H2]]]]; injection E0 as <-; split; [destruct H1; [exact H|contradiction]|exact H2]|]. intros [H1 H2]. exists (d :: ds). split; [rewrite Es; discriminate|]. repeat split; auto. }
      rewrite K. destruct (Z.eq_dec d 0) as [->|Nd]; [split; [discriminate|intros [H _]; contradiction]|].
      assert (E : match d with 0 => None | _ => Some (fold_left (fun acc d => fadd (fmul acc (of_Z 10)) (of_Z d)) (d :: ds) f0) end = Some (of_Z (value 10 (d :: ds)))) by (unfold f0; rewrite fold_field; destruct d; [contradiction|reflexivity|reflexivity]).
      destruct d; [contradiction| |]; rewrite E; (split; [intros H; injection H as <-; split; [discriminate|reflexivity]|intros [_ ->]; reflexivity]).
    + split; [discriminate|]. intros [ds [_ [D' _]]]. discriminate D'.
Qed.
Lemma ark_dec : forall x, 0 <= x -> ark_from_str (dec_string x) = Some (of_Z x).
Proof.
  intros x H. apply ark_from_str_spec. destruct (num_digits_ok 10 x ltac:(lia) H) as [A [B [d [r [C D]]]]]. exists (num_digits 10 x). unfold dec_string.
  split; [rewrite C; discriminate|]. split; [apply digits_of_digits; [lia|exact A]|]. split; [|rewrite B; reflexivity].
  rewrite C. cbn [hd]. destruct (Z.eq_dec d 0) as [->|N]; [right|left; exact N]. destruct (D eq_refl) as [_ ->]. reflexivity.
Qed.
End FieldStringFacts.
Lemma checked_spec : forall radix max s acc n, 1 < radix -> 0 <= acc < max -> (checked_digits radix max acc s = Some n <->
  exists ds, digits radix s = Some ds /\ n = fold_left (fun acc d => acc * radix + d) ds acc /\ n < max).
Proof.
  intros radix max s. induction s as [|c s IH]; intros acc n R Ha; cbn [checked_digits digits].
  - split; [intros H; injection H as <-; exists []; split; [reflexivity|]; split; [reflexivity|lia]|]. intros [ds [E [-> _]]]. injection E as <-. reflexivity.
  - destruct (digit radix c) as [d|] eqn:D; [|split; [discriminate|intros [ds [E _]]; discriminate E]]. pose proof (digit_range _ _ _ D).
    destruct (Z.ltb_spec (acc * radix + d) max) as [L|L].
    + rewrite IH by (try lia; nia). destruct (digits radix s) as [l|].
      * split; intros [ds [E [H1 H2]]]; injection E as <-; eexists; (split; [reflexivity|]); split; auto.
      * split; intros [ds [E _]]; discriminate E.
    + split; [discriminate|]. intros [ds [E [H1 H2]]]. destruct (digits radix s) as [l|] eqn:E1; [|discriminate E]. injection E as <-. cbn [fold_left] in H1.
      rewrite value_acc in H1. pose proof (digits_range _ _ _ E1) as Hl.
      assert (0 <= value radix l) by (apply value_nonneg; [lia|]; eapply Forall_impl; [|exact Hl]; cbn; intros; lia).
      pose proof (Z.pow_pos_nonneg radix (Z.of_nat (length l)) ltac:(lia) ltac:(lia)). nia.
Qed.
(** an optional + in front of a numeral *)
Definition signed (s t : string) : Prop := s = t \/ s = String "+" t.
Lemma plus_no_digit : forall radix, radix <= 36 -> digit radix "+" = None.
Proof. intros radix H. unfold digit. cbn. destruct (Z.ltb_spec 255 radix); [lia|reflexivity]. Qed.
Lemma signed_none : forall radix s n, radix <= 36 -> (exists t, signed s t /\ denotes radix t n) -> forall r, s = String "+" r -> denotes radix r n.
Proof.
  intros radix s n R [t [[->| ->] H]] r E.
  - subst t. destruct H as [ds [_ [D _]]]. cbn [digits] in D. rewrite plus_no_digit in D by exact R. discriminate D.
  - injection E as ->. exact H.
Qed.
Lemma uint_plus : forall radix w r, uint_parse radix w (String "+" r) = match r with EmptyString => None | _ => checked_digits radix (2 ^ w) 0 r end.
Proof. reflexivity. Qed.
Lemma uint_other : forall radix w c r, c <> "+"%char -> uint_parse radix w (String c r) = checked_digits radix (2 ^ w) 0 (String c r).
Proof. intros radix w c r N. destruct c as [[|] [|] [|] [|] [|] [|] [|] [|]]; try reflexivity. exfalso. apply N. reflexivity. Qed.
Lemma uint_parse_spec : forall radix w s n, 1 < radix <= 36 -> 0 <= w -> (uint_parse radix w s = Some n <-> exists t, signed s t /\ denotes radix t n /\ n < 2 ^ w).
Proof.
  intros radix w s n R W. assert (M : 0 <= 0 < 2 ^ w) by (pose proof (Z.pow_pos_nonneg 2 w); lia).
  assert (G : forall t, t <> EmptyString -> (checked_digits radix (2 ^ w) 0 t = Some n <-> denotes radix t n /\ n < 2 ^ w)).
  { intros t Ht. rewrite checked_spec by lia. unfold denotes, value. split.
    - intros [ds [A [B C]]]. split; [exists ds; split; [exact Ht|]; split; [exact A|symmetry; exact B]|exact C].
    - intros [[ds [_ [A B]]] C]. exists ds. split; [exact A|]. split; [symmetry; exact B|exact C]. }
  destruct s as [|c r]; [split; [discriminate|]; intros [t [[<-|E] [[ds [H _]] _]]]; [contradiction|discriminate E]|].
  destruct (Ascii.eqb_spec c "+") as [->|N].
  - rewrite uint_plus. destruct r as [|c2 r2].
    + split; [discriminate|]. intros [t [H1 [H2 H3]]]. pose proof (signed_none radix _ n ltac:(lia) (ex_intro _ t (conj H1 H2)) _ eq_refl) as [ds [H _]]. contradiction.
    + rewrite G by discriminate. split; [intros [A B]; exists (String c2 r2); split; [right; reflexivity|split; assumption]|].
      intros [t [H1 [H2 H3]]]. split; [exact (signed_none radix _ n ltac:(lia) (ex_intro _ t (conj H1 H2)) _ eq_refl)|exact H3].
  - rewrite uint_other by exact N. rewrite G by discriminate. split; [intros [A B]; exists (String c r); split; [left; reflexivity|split; assumption]|].
    intros [t [[<-|E] [A B]]]; [split; assumption|]. injection E as -> _. contradiction.
Qed.
(** a numeral in which underscores are skipped: [drop_ s] has no underscore *)
Fixpoint drop_ (s : string) : string := match s with EmptyString => EmptyString | String c r => if Ascii.eqb c "_" then drop_ r else String c (drop_ r) end.
Lemma digits_drop : forall radix s, digits_ radix s = digits radix (drop_ s).
Proof. intros radix s. induction s as [|c s IH]; cbn [digits_ drop_]; [reflexivity|]. destruct (Ascii.eqb c "_"); [exact IH|]. cbn [digits]. rewrite IH. reflexivity. Qed.
Lemma biguint_spec : forall radix s n, 1 < radix <= 36 -> (biguint_parse radix s = Some n <-> exists t, signed s t /\ t <> EmptyString /\ (forall r, t <> String "_" r) /\ denotes radix (drop_ t) n).
Proof.
  intros radix s n R.
  assert (G : forall t, (match t with EmptyString => None | String c r => if Ascii.eqb c "_" then None else match digits_ radix (String c r) with Some ds => Some (value radix ds) | None => None end end = Some n) <->
                        t <> EmptyString /\ (forall r, t <> String "_" r) /\ denotes radix (drop_ t) n).
  { intros t. destruct t as [|c r]; [split; [discriminate|intros [H _]; contradiction]|]. destruct (Ascii.eqb_spec c "_") as [->|N].
    - split; [discriminate|]. intros [_ [H _]]. exfalso. apply (H r). reflexivity.
    - rewrite digits_drop. assert (Ne : drop_ (String c r) <> EmptyString) by (cbn [drop_]; destruct (Ascii.eqb_spec c "_"); [contradiction|discriminate]).
      unfold denotes. destruct (digits radix (drop_ (String c r))) as [ds|].
      + split; [intros H; injection H as <-; split; [discriminate|]; split; [intros r' X; injection X as -> _; apply N; reflexivity|]; exists ds; repeat split; exact Ne|].
        intros [_ [_ [ds' [_ [X Y]]]]]. injection X as <-. rewrite Y. reflexivity.
      + split; [discriminate|]. intros [_ [_ [ds' [_ [X _]]]]]. discriminate X. }
  assert (Pd : forall r, ~ denotes radix (drop_ (String "+" r)) n) by (intros r [ds [_ [D _]]]; cbn [drop_ Ascii.eqb Bool.eqb digits] in D; rewrite plus_no_digit in D by lia; discriminate D).
  unfold biguint_parse.
  rewrite G. destruct s as [|c r].
  - cbn [strip_plus]. split; [intros [H _]; contradiction|]. intros [t [[<-|E] [H _]]]; [contradiction|discriminate E].
  - destruct (Ascii.eqb_spec c "+") as [->|N].
    + destruct r as [|c2 r2].
      * cbn [strip_plus]. split; [intros [H _]; contradiction|]. intros [t [[<-|E] [H1 [H2 H3]]]]; [exfalso; exact (Pd _ H3)|]. injection E as <-. contradiction.
      * destruct (Ascii.eqb_spec c2 "+") as [->|N2].
        -- change (strip_plus (String "+" (String "+" r2))) with (String "+" (String "+" r2)). split; [intros [_ [_ H]]; exfalso; exact (Pd _ H)|].
           intros [t [[<-|E] [_ [_ H]]]]; [exfalso; exact (Pd _ H)|]. injection E as <-. exfalso. exact (Pd _ H).
        -- assert (E : strip_plus (String "+" (String c2 r2)) = String c2 r2). { destruct c2 as [[|] [|] [|] [|] [|] [|] [|] [|]]; try reflexivity. exfalso. apply N2. reflexivity. }
           rewrite E. split; [intros H; exists (String c2 r2); split; [right; reflexivity|exact H]|]. intros [t [[<-|E'] [H1 [H2 H3]]]]; [exfalso; exact (Pd _ H3)|]. injection E' as <-. split; [exact H1|split; assumption].
    + assert (E : strip_plus (String c r) = String c r). { destruct c as [[|] [|] [|] [|] [|] [|] [|] [|]]; try reflexivity. exfalso. apply N. reflexivity. }
      rewrite E. split; [intros H; exists (String c r); split; [left; reflexivity|exact H]|]. intros [t [[<-|E'] H]]; [exact H|]. injection E' as -> _. contradiction.
Qed.
