(** C26, C27: the ABI. *)
From Coq Require Import String Ascii.
From Coq Require Import ZArith List Bool Lia.
From Verif Require Import PField Concrete Primality Fields Str Interp ProgIO Abi AbiJson.
Import ListNotations.
Open Scope Z_scope.

(** ** C26: values and field elements *)
Theorem C26_size : forall (PF : PrimeField) t v, has_type v t -> length (encode v) = prim_count t.
Proof. intros PF. exact encode_length. Qed.
(** [wide]: the field is larger than every uN, as the six fields are. *)
Theorem C26_fields_wide : forall (PF : PrimeField) c, pp = modulus c -> wide.
Proof. intros PF c E. unfold wide. rewrite E. destruct c; apply Z.leb_le; vm_compute; reflexivity. Qed.
(** Missing: arrays whose elements take no field element, see C26_empty_elements_refuted. *)
Theorem C26_decode_encode_partial : forall (PF : PrimeField) t v, wide -> has_type v t -> no_empty t -> decode t (encode v) = Some v.
Proof. intros PF t v W H N. apply decode_encode; assumption. Qed.
Theorem C26_encode_decode : forall (PF : PrimeField) t raw v, length raw = prim_count t -> decode t raw = Some v -> has_type v t /\ encode v = raw.
Proof. intros PF. exact encode_decode. Qed.
(** Decoding fails exactly on the elements that encode no value of the type. *)
Theorem C26_decode_total_partial : forall (PF : PrimeField) t raw, wide -> no_empty t -> length raw = prim_count t -> (decode t raw <> None <-> exists v, has_type v t /\ encode v = raw).
Proof.
  intros PF t raw W N L. split.
  - intros H. destruct (decode t raw) as [v|] eqn:E; [|contradiction]. exists v. apply encode_decode; assumption.
  - intros [v [H <-]]. rewrite decode_encode by assumption. discriminate.
Qed.
(** Different values of a type have different encodings. *)
Theorem C26_injective : forall (PF : PrimeField) t v w, wide -> has_type v t -> has_type w t -> encode v = encode w -> no_empty t -> v = w.
Proof. intros PF t v w W Hv Hw E N. pose proof (decode_encode W t v Hv N) as A. rewrite E, decode_encode in A by assumption. injection A as ->. reflexivity. Qed.
(** Lists of values: the arguments of a program *)
Theorem C26_values_partial : forall (PF : PrimeField) ts vs, wide -> Forall2 has_type vs ts -> Forall no_empty ts -> decode_values ts (encode_values vs) = Some vs /\ length (encode_values vs) = sum_count ts.
Proof.
  intros PF ts vs W H N. assert (T : has_type (VTuple vs) (CTuple ts)) by (apply type_tuple; exact H). pose proof (decode_encode W (CTuple ts) (VTuple vs) T) as D. rewrite decode_tuple in D. cbn [encode] in D.
  destruct (decode_values ts (flat_map encode vs)) as [l|] eqn:E; [|discriminate (D (proj2 (no_empty_tuple ts) N))]. injection (D (proj2 (no_empty_tuple ts) N)) as ->. split; [exact E|]. rewrite <- count_tuple. exact (encode_length _ _ T).
Qed.
(** REFUTED in general, over every field: the result of a program returning field[0][2] cannot be decoded, chunks(0) panics. *)
Theorem C26_empty_elements_refuted : forall PF : PrimeField, exists t v, has_type v t /\ decode t (encode v) = None.
Proof. intros PF. exists (CArray (CArray CField 0) 2), (VArray [VArray []; VArray []]). split; [cbn; tauto|reflexivity]. Qed.
(** A case: struct { a: u8, b: (bool, field)[2] } *)
Definition case_ty : cty := CStruct [("a"%string, CUint W8); ("b"%string, CArray (CTuple [CBool; CField]) 2)].
Definition case_val : @value_ bn254 := VStruct [("a"%string, VUint W8 255); ("b"%string, VArray [VTuple [VBool true; VField (of_Z 3)]; VTuple [VBool false; VField (of_Z (-1))]])].
Example C26_case : has_type case_val case_ty /\ no_empty case_ty /\ distinct_members case_ty /\ map fval (encode case_val) = [255; 1; 3; 0; @pp bn254 - 1].
Proof. split; [cbn; repeat split; lia|]. split; [cbn; repeat split; discriminate|]. split; [|vm_compute; reflexivity]. cbn. repeat split; repeat constructor; cbn; intuition discriminate. Qed.
Print Assumptions C26_values_partial.

(** ** C27: JSON *)
Theorem C27_roundtrip : forall (PF : PrimeField) t v, has_type v t -> distinct_members t -> parse_value t (to_json v) = Some v.
Proof. intros PF. exact parse_to_json. Qed.
Theorem C27_typed : forall (PF : PrimeField) t j v, parse_value t j = Some v -> has_type v t.
Proof. intros PF. exact parse_typed. Qed.
(** Accepted arguments have the number of field elements the signature asks for. *)
Theorem C27_arguments : forall (PF : PrimeField) ts js vs, parse_values ts js = Some vs -> Forall2 has_type vs ts /\ length (encode_values vs) = sum_count ts.
Proof.
  intros PF ts js vs H. unfold parse_values in H. destruct (Nat.eqb_spec (length js) (length ts)) as [L|]; [|discriminate H]. apply opt_list_map_inv in H.
  assert (G : Forall2 has_type vs ts).
  { revert js vs L H. induction ts as [|t ts IH]; intros [|j js] vs L H; try discriminate L; cbn [combine] in H; inversion H; subst; constructor; [cbn in *; eapply parse_typed; eassumption|eapply IH; [|eassumption]; cbn in L; lia]. }
  split; [exact G|]. rewrite <- count_tuple. apply (encode_length (CTuple ts) (VTuple vs)). apply type_tuple. exact G.
Qed.
(** Exactly what a uN string is read as: a decimal numeral if that is in range, else a hexadecimal one. *)
Theorem C27_uint_exact : forall w s n, parse_uint w s = Some n <->
  (exists t, signed s t /\ denotes 10 t n /\ n < 2 ^ bits_of w) \/
  ((forall t m, signed s t -> denotes 10 t m -> m >= 2 ^ bits_of w) /\ exists t, signed (trim_0x s) t /\ denotes 16 t n /\ n < 2 ^ bits_of w).
Proof.
  intros w s n. pose proof (bits_nonneg w) as B. unfold parse_uint. rewrite <- (uint_parse_spec 10 (bits_of w) s n) by lia. rewrite <- (uint_parse_spec 16 (bits_of w) (trim_0x s) n) by lia.
  destruct (uint_parse 10 (bits_of w) s) as [m|] eqn:E.
  - split; [intros H; left; exact H|]. intros [H|[H _]]; [exact H|]. exfalso. apply uint_parse_spec in E as [t [A [D L]]]; [|lia|exact B]. specialize (H t m A D). lia.
  - split; [|intros [H|[_ H]]; [discriminate H|exact H]]. intros H. right. split; [|exact H]. intros t m A D. destruct (Z_lt_ge_dec m (2 ^ bits_of w)) as [L|L]; [|exact L]. exfalso.
    assert (X : uint_parse 10 (bits_of w) s = Some m) by (apply uint_parse_spec; [lia|exact B|]; exists t; split; [exact A|split; assumption]). rewrite X in E. discriminate E.
Qed.
Lemma digits_no_x : forall radix s ds, radix <= 16 -> digits radix s = Some ds -> trim_0x s = s.
Proof.
  intros radix s ds R H. destruct s as [|c [|e r]]; [reflexivity| |].
  - destruct c as [[|] [|] [|] [|] [|] [|] [|] [|]]; reflexivity.
  - destruct (Ascii.eqb_spec e "x") as [->|N].
    + cbn [digits] in H. assert (X : digit radix "x" = None) by (unfold digit; cbn; destruct (Z.ltb_spec 33 radix); [lia|reflexivity]). rewrite X in H. destruct (digit radix c); discriminate H.
    + destruct c as [[|] [|] [|] [|] [|] [|] [|] [|]]; try reflexivity. destruct e as [[|] [|] [|] [|] [|] [|] [|] [|]]; try reflexivity. exfalso. apply N. reflexivity.
Qed.
Lemma digit_16 : forall c d, digit 10 c = Some d -> digit 16 c = Some d.
Proof. intros c d H. unfold digit in *. cbv zeta in *. match type of H with (if ?e <? 10 then _ else _) = _ => destruct (Z.ltb_spec e 10); [|discriminate H]; destruct (Z.ltb_spec e 16); [exact H|lia] end. Qed.
Lemma digits_16 : forall s ds, digits 10 s = Some ds -> digits 16 s = Some ds.
Proof.
  induction s as [|c s IH]; intros ds H; cbn [digits] in *; [exact H|]. destruct (digit 10 c) as [d|] eqn:D; [|discriminate H]. destruct (digits 10 s) as [l|] eqn:E; [|discriminate H]. rewrite (digit_16 _ _ D), (IH _ eq_refl). exact H.
Qed.
(** A decimal or 0x numeral outside [0, 2^N) is rejected: never truncated, and a decimal one never re-read as a smaller hexadecimal one. *)
Theorem C27_out_of_range : forall w s n, 2 ^ bits_of w <= n -> denotes 10 s n \/ (exists t, s = String "0" (String "x" t) /\ denotes 16 t n) -> parse_uint w s = None.
Proof.
  intros w s n L H. pose proof (bits_nonneg w) as B. assert (P0 : forall radix t ds, radix <= 36 -> digits radix t = Some ds -> forall r, t <> String "+" r).
  { intros radix t ds R D r ->. cbn [digits] in D. rewrite plus_no_digit in D by exact R. discriminate D. }
  destruct (parse_uint w s) as [m|] eqn:E; [|reflexivity]. exfalso. apply C27_uint_exact in E. destruct H as [H|[u [-> H]]].
  - destruct H as [ds [Hs [D V]]]. assert (U : forall t, signed s t -> t = s) by (intros t [->|X]; [reflexivity|exfalso; exact (P0 10 s ds ltac:(lia) D t X)]).
    destruct E as [[t [A [[ds' [_ [D' V']]] L']]]|[_ [t [A [[ds' [_ [D' V']]] L']]]]].
    + rewrite (U t A), D in D'. injection D' as <-. lia.
    + rewrite (digits_no_x 10 _ _ ltac:(lia) D) in A. rewrite (U t A), (digits_16 _ _ D) in D'. injection D' as <-. pose proof (value_mono 10 16 ds ltac:(lia)) as M. pose proof (digits_range _ _ _ D) as R.
      specialize (M ltac:(eapply Forall_impl; [|exact R]; cbn; intros; lia)). lia.
  - destruct E as [[t [[<-|X] [[ds' [_ [D' _]]] _]]]|[_ [t [A [[ds' [_ [D' V']]] L']]]]]; [discriminate D'|discriminate X|].
    cbn [trim_0x] in A. destruct H as [ds [_ [D V]]]. rewrite (digits_no_x 16 _ _ ltac:(lia) D) in A. destruct A as [->|X]; [rewrite D in D'; injection D' as <-; lia|exact (P0 16 u ds ltac:(lia) D t X)].
Qed.
(** A field string with 0x is read as that integer if it is below the modulus, else rejected. *)
Theorem C27_field_hex : forall (PF : PrimeField) t n, denotes 16 t n ->
  option_map fval (parse_field (String "0" (String "x" t))) = if n <? pp then Some n else None.
Proof.
  intros PF t n H. unfold parse_field.
  assert (E : try_from_dec_str (String "0" (String "x" t)) = None).
  { destruct (try_from_dec_str _) as [x|] eqn:E; [|reflexivity]. apply ark_from_str_spec in E as [ds [_ [D _]]]. discriminate D. }
  rewrite E. cbn [trim_0x]. pose proof H as [ds [Hne [D V]]]. rewrite (digits_no_x 16 _ _ ltac:(lia) D).
  assert (Nu : forall s l, digits 16 s = Some l -> drop_ s = s). { induction s as [|c s IH]; intros l X; [reflexivity|]. cbn [digits] in X. destruct (digit 16 c) as [d|] eqn:Dc; [|discriminate X]. destruct (digits 16 s) as [r|] eqn:Dr; [|discriminate X]. cbn [drop_]. destruct (Ascii.eqb_spec c "_") as [->|]; [discriminate Dc|]. rewrite (IH _ eq_refl). reflexivity. }
  assert (G : biguint_parse 16 t = Some n). { apply biguint_spec; [lia|]. exists t. split; [left; reflexivity|]. split; [exact Hne|]. split; [intros r ->; discriminate D|]. rewrite (Nu _ _ D). exact H. }
  assert (N0 : 0 <= n). { rewrite <- V. apply value_nonneg; [lia|]. eapply Forall_impl; [|eapply digits_range; exact D]. cbn. intros; lia. }
  unfold try_from_str. rewrite G. unfold try_from_biguint. destruct (Z.leb_spec n (pp - 1)); destruct (Z.ltb_spec n pp); try lia; [|reflexivity].
  rewrite ark_dec by exact N0. cbn [option_map]. rewrite fval_of_Z_small by lia. reflexivity.
Qed.
Print Assumptions C27_field_hex.
(** REFUTED for fields: the decimal numeral "010" is read as 16 (and as 10 for a u8); a decimal numeral above the modulus is reduced. *)
Theorem C27_field_numerals_refuted : exists s n (x : @F bn254), denotes 10 s n /\ parse_value CField (JString s) = Some (VField x) /\ fval x <> n /\ n < @pp bn254 /\ @parse_value bn254 (CUint W8) (JString s) = Some (VUint W8 n).
Proof.
  exists "010"%string, 10, (of_Z 16). split; [exists [0; 1; 0]; repeat split; discriminate|].
  split; [|split; [vm_compute; discriminate|split; [reflexivity|vm_compute; reflexivity]]].
  cbn [parse_value option_map]. replace (@parse_field bn254 "010") with (Some (@of_Z bn254 16)); [reflexivity|].
  assert (E : option_map fval (@parse_field bn254 "010") = Some 16) by (vm_compute; reflexivity). destruct (@parse_field bn254 "010") as [y|]; [|discriminate E]. cbn in E. injection E as E. f_equal. apply F_ext. rewrite E. reflexivity.
Qed.
Example C27_case : parse_value case_ty (to_json case_val) = Some case_val.
Proof. apply C27_roundtrip; apply C26_case. Qed.
Example C27_out_of_range_case : parse_uint W8 "256" = None /\ parse_uint W8 "0x100" = None /\ parse_uint W8 "0xff" = Some 255 /\ parse_uint W8 "ff" = Some 255 /\ parse_uint W8 "99" = Some 99.
Proof. vm_compute. repeat split. Qed.
