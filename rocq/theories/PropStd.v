(** C57: what the functions of the standard library compute, for every input and every size, and what the circuits compiled from their calls guarantee.
    Models: zokrates_stdlib/stdlib (the functions transcribed in Std.v). *)
From Coq Require Import String Ascii.
From Coq Require Import ZArith NArith List Bool Lia Permutation.
From Verif Require Import Typed Writes Src SrcTy TProp TPropOk TPropProg PropTProp Reduce ReduceRen ReduceExp ReduceSimple ReduceBody Lower PropReduce ReduceOnce.
From Verif Require Import PField SMap Concrete IR IRSpec Interp Bits Optimizer OptimizerProofs OptPipeline OptExtra Flat Zir Codegen CgProg CgEnd CgCheck PropIR Primality CgExamples PropCodegen UintOpt Panic DeadCode NoFail PropCompile Source PropSource PropChecked ZProp ZPropStmt PropFold UintCheck PropUint
  Str Abi Typed Flatten FlattenOps FlattenSim FlattenRun FlattenEnd Enforce PropTyped Writes Redefine WritesVal WritesExp WritesChoose WritesRun WritesEnd WritesWf Bounds PropWrites PropWEnd PropSrcEnd.
From Verif Require Import Std StdRun Edwards StdSpec StdEc StdTy.
Import ListNotations.
Open Scope list_scope.
Open Scope Z_scope.

(** ** Specification *)
(** Called with values [gs] of its generic parameters and arguments [vs], function [f] of type ts -> t returns [v] (and logs nothing), or violates an assertion; four
    nested calls are enough. *)
Definition returns {PF : PrimeField} (f : nat) (gs : list Z) (ts : list cty) (t : cty) (vs : list value_) (v : value_) : Prop := forall k, scall std (4 + k) f gs ts t vs = Ok ([], v).
Definition rejects_ {PF : PrimeField} (f : nat) (gs : list Z) (ts : list cty) (t : cty) (vs : list value_) : Prop := forall k, scall std (4 + k) f gs ts t vs = Failed.
(** the number with the given digits, most significant first *)
Definition digits (base : Z) (l : list Z) : Z := fold_left (fun a x => a * base + x) l 0.
Definition bit (b : bool) : Z := if b then 1 else 0.
Definition barr {PF : PrimeField} (bs : list bool) : value_ := VArray (map VBool bs).
Definition uarr {PF : PrimeField} (us : list Z) : value_ := VArray (map (VUint W32) us).
Definition farr {PF : PrimeField} (xs : list F) : value_ := VArray (map VField xs).
Definition words32 (us : list Z) : Prop := Forall (fun u => 0 <= u < 2 ^ 32) us.
Definition N32 (n : nat) : Z := Z.of_nat n.
Lemma bv_digits : forall bs, bv bs = digits 2 (map bit bs).
Proof.
  unfold digits. assert (G : forall bs a, fold_left (fun a x => a * 2 + x) (map bit bs) a = a * 2 ^ Z.of_nat (length bs) + bv bs).
  { induction bs as [|b bs IH]; intros a; cbn [map fold_left length bv]; [change (2 ^ Z.of_nat 0) with 1; lia|]. rewrite IH, Nat2Z.inj_succ, Z.pow_succ_r by lia. unfold bit, pow2. destruct b; ring. }
  intros bs. rewrite (G bs 0). lia.
Qed.
(** ** Bits and numbers *)
(** pack: the field element with the given binary digits (modulo p) *)
Theorem C57_pack : forall (PF : PrimeField) bs, N32 (length bs) < 2 ^ 32 -> returns f_pack [N32 (length bs)] [bits_ty (length bs)] CField [barr bs] (VField (of_Z (digits 2 (map bit bs)))).
Proof. intros PF bs H k. rewrite <- bv_digits. exact (pack_spec (3 + k) bs H). Qed.
Print Assumptions C57_pack.
(** the [n] least significant binary digits of [x], most significant first *)
Definition binary (n : nat) (x : Z) : list bool := map (fun i => Z.testbit x (Z.of_nat (n - 1 - i))) (seq 0 n).
Lemma binary_be : forall n x, bits_be n x = binary n x.
Proof.
  unfold binary. induction n as [|n IH]; intros x; [reflexivity|]. cbn [bits_be seq map]. f_equal; [f_equal; lia|]. rewrite IH, <- seq_shift, map_map. apply map_ext_in. intros i I. apply in_seq in I. f_equal. lia.
Qed.
(** unpack<N>: the N binary digits of a field element below 2^N; any other element is rejected *)
Theorem C57_unpack : forall (PF : PrimeField) n x, (3 <= required_bits)%nat -> N32 required_bits < 2 ^ 32 -> (n <= required_bits)%nat ->
  (fval x < 2 ^ N32 n -> returns f_unpack [N32 n] [CField] (bits_ty n) [VField x] (barr (binary n (fval x)))) /\
  (2 ^ N32 n <= fval x -> rejects_ f_unpack [N32 n] [CField] (bits_ty n) [VField x]).
Proof.
  intros PF n x Hr Hs Hn. split; intros H k; pose proof (unpack_spec Hr Hs (1 + k) n x Hn) as E; (etransitivity; [exact E|]); unfold N32 in H.
  - destruct (Z.ltb_spec (fval x) (2 ^ Z.of_nat n)) as [_|L]; [|lia]. rewrite binary_be. reflexivity.
  - destruct (Z.ltb_spec (fval x) (2 ^ Z.of_nat n)) as [L|_]; [lia|]. reflexivity.
Qed.
Print Assumptions C57_unpack.
Theorem C57_unpack_unchecked : forall (PF : PrimeField) n x, (3 <= required_bits)%nat -> N32 required_bits < 2 ^ 32 -> (n <= required_bits)%nat ->
  (fval x < 2 ^ N32 n -> returns f_unpack_unchecked [N32 n] [CField] (bits_ty n) [VField x] (barr (binary n (fval x)))) /\
  (2 ^ N32 n <= fval x -> rejects_ f_unpack_unchecked [N32 n] [CField] (bits_ty n) [VField x]).
Proof.
  intros PF n x Hr Hs Hn. split; intros H k; pose proof (unpack_unchecked_spec Hr Hs (2 + k) n x Hn) as E; (etransitivity; [exact E|]); unfold N32 in H.
  - destruct (Z.ltb_spec (fval x) (2 ^ Z.of_nat n)) as [_|L]; [|lia]. rewrite binary_be. reflexivity.
  - destruct (Z.ltb_spec (fval x) (2 ^ Z.of_nat n)) as [L|_]; [lia|]. reflexivity.
Qed.
Print Assumptions C57_unpack_unchecked.
(** pack undoes unpack, and unpack undoes pack below p *)
Theorem C57_pack_unpack : forall (PF : PrimeField) n x, (3 <= required_bits)%nat -> N32 required_bits < 2 ^ 32 -> (n <= required_bits)%nat ->
  (forall bs, returns f_unpack [N32 n] [CField] (bits_ty n) [VField x] (barr bs) -> returns f_pack [N32 n] [bits_ty n] CField [barr bs] (VField x)) /\
  (forall bs, length bs = n -> digits 2 (map bit bs) < pp -> returns f_pack [N32 n] [bits_ty n] CField [barr bs] (VField x) -> returns f_unpack [N32 n] [CField] (bits_ty n) [VField x] (barr bs)).
Proof.
  intros PF n x Hr Hs Hn. destruct (C57_unpack PF n x Hr Hs Hn) as [A B]. pose proof (fval_range x) as R. split.
  - intros bs H. destruct (Z.ltb_spec (fval x) (2 ^ N32 n)) as [L|L].
    + specialize (A L). pose proof (A O) as E1. rewrite (H O) in E1. injection E1 as E1. assert (bs = binary n (fval x)). { clear - E1. revert E1. generalize (binary n (fval x)). induction bs as [|b bs IH]; intros [|c cs] E; try discriminate E; [reflexivity|]. injection E as -> E. f_equal. exact (IH _ E). }
      subst bs. rewrite <- binary_be. pose proof (C57_pack PF (bits_be n (fval x))) as P. rewrite Bits.bits_be_length, <- bv_digits, bv_bits_be in P. unfold pow2 in P. unfold N32 in *. rewrite Z.mod_small in P by lia. rewrite of_Z_fval in P. apply P. lia.
    + specialize (B L O). rewrite (H O) in B. discriminate B.
  - intros bs L D H. pose proof (C57_pack PF bs) as P. rewrite L in P. assert (Ln : N32 n < 2 ^ 32) by (unfold N32 in *; lia). specialize (P Ln O). rewrite (H O) in P. injection P as P. rewrite <- bv_digits in D, P. pose proof (bv_range bs) as Rb. rewrite L in Rb. unfold pow2 in Rb.
    assert (E : fval x = bv bs) by (rewrite P; cbn; apply Z.mod_small; lia). unfold N32 in *. assert (E2 : binary n (fval x) = bs). { rewrite <- binary_be, E, <- L. apply bits_be_bv. }
    rewrite <- E2. apply A. lia.
Qed.
Print Assumptions C57_pack_unpack.
(** u8_to_field, u16_to_field, u32_to_field, u64_to_field *)
Theorem C57_to_field : forall (PF : PrimeField) w n, 0 <= n < 2 ^ N32 (uwn w) -> returns f_to_field [] [CUint w] CField [VUint w n] (VField (of_Z n)).
Proof. intros PF w n H k. exact (to_field_spec (2 + k) w n H). Qed.
Print Assumptions C57_to_field.
(** field_to_u8, field_to_u16, field_to_u32, field_to_u64: the least significant bits *)
Theorem C57_from_field : forall (PF : PrimeField) w x, (3 <= required_bits)%nat -> N32 required_bits < 2 ^ 32 -> (uwn w <= required_bits)%nat -> returns f_from_field [] [CField] (CUint w) [VField x] (VUint w (fval x mod 2 ^ N32 (uwn w))).
Proof. intros PF w x Hr Hs H k. exact (from_field_spec Hr Hs k w x H). Qed.
Print Assumptions C57_from_field.
(** u32_array_to_bool_array and bool_array_to_u32_array: each word is its 32 bits *)
Theorem C57_u32s_to_bits : forall (PF : PrimeField) us, 32 * N32 (length us) < 2 ^ 32 ->
  returns f_u32s_to_bits [N32 (length us); N32 (32 * length us)] [u32s (length us)] (bits_ty (32 * length us)) [uarr us] (barr (flat_map (binary 32) us)).
Proof. intros PF us H k. etransitivity; [exact (u32s_to_bits_spec (2 + k) us H)|]. assert (E : bits_of_words us = flat_map (binary 32) us) by (unfold bits_of_words; apply flat_map_ext; intros u; apply binary_be). rewrite E. reflexivity. Qed.
Print Assumptions C57_u32s_to_bits.
Theorem C57_bits_to_u32s : forall (PF : PrimeField) us, words32 us -> 32 * N32 (length us) < 2 ^ 32 ->
  returns f_bits_to_u32s [N32 (32 * length us); N32 (length us)] [bits_ty (32 * length us)] (u32s (length us)) [barr (flat_map (binary 32) us)] (uarr us).
Proof.
  intros PF us Hu H k. assert (E : flat_map (binary 32) us = bits_of_words us) by (unfold bits_of_words; apply flat_map_ext; intros u; symmetry; apply binary_be). rewrite E. pose proof (bits_of_words_length us) as L.
  pose proof (bits_to_u32s_spec (2 + k) (bits_of_words us) (length us) L) as S. rewrite L in S. etransitivity; [apply S; unfold N32, len in *; lia|]. rewrite (words_of_bits us Hu). reflexivity.
Qed.
Print Assumptions C57_bits_to_u32s.
(** every array of bits is the array of the bits of some words: the previous theorem covers all inputs *)
Theorem C57_bits_are_words : forall bs p, length bs = (32 * p)%nat -> exists us, length us = p /\ words32 us /\ bs = flat_map (binary 32) us.
Proof.
  intros bs p L. exists (words bs p). split; [unfold words; rewrite map_length, seq_length; reflexivity|]. split.
  - unfold words32, words. apply Forall_forall. intros u I. apply in_map_iff in I as (i & <- & I). apply in_seq in I. unfold word. pose proof (bv_range (firstn 32 (skipn (32 * i) bs))) as R. unfold pow2 in R. assert (F : length (firstn 32 (skipn (32 * i) bs)) = 32%nat) by (rewrite firstn_length, skipn_length; lia). rewrite F in R. exact R.
  - rewrite <- (bits_of_words_words p bs L) at 1. unfold bits_of_words. apply flat_map_ext. intros u. apply binary_be.
Qed.
Print Assumptions C57_bits_are_words.
(** utils/pack/u32/pack: the field element with the given digits in base 2^32 (modulo p) *)
Theorem C57_pack_u32 : forall (PF : PrimeField) us, words32 us -> 32 * N32 (length us) < 2 ^ 32 -> returns f_pack_u32 [N32 (length us)] [u32s (length us)] CField [uarr us] (VField (of_Z (digits (2 ^ 32) us))).
Proof. intros PF us Hu H k. exact (pack_u32_spec (1 + k) us H Hu). Qed.
Print Assumptions C57_pack_u32.
(** ** Multiplexers *)
Theorem C57_lookup1 : forall (PF : PrimeField) b c0 c1, returns f_lookup1 [] [CBool; pt] CField [VBool b; farr [c0; c1]] (VField (nth (Z.to_nat (bit b)) [c0; c1] f0)).
Proof. intros PF b c0 c1 k. etransitivity; [exact (lookup1_spec (3 + k) b c0 c1)|]. destruct b; reflexivity. Qed.
Print Assumptions C57_lookup1.
(** element number b0 + 2 b1 *)
Theorem C57_lookup2 : forall (PF : PrimeField) b0 b1 c, length c = 4%nat -> returns f_lookup2 [] [bits_ty 2; q4] CField [barr [b0; b1]; farr c] (VField (nth (Z.to_nat (bit b0 + 2 * bit b1)) c f0)).
Proof. intros PF b0 b1 c H k. destruct c as [|x0 [|x1 [|x2 [|x3 [|]]]]]; try discriminate H. etransitivity; [exact (lookup2_spec (3 + k) b0 b1 x0 x1 x2 x3)|]. destruct b0, b1; reflexivity. Qed.
Print Assumptions C57_lookup2.
Theorem C57_lookup3 : forall (PF : PrimeField) b0 b1 b2 c, length c = 4%nat ->
  returns f_lookup3 [] [bits_ty 3; q4] CField [barr [b0; b1; b2]; farr c] (VField (let x := nth (Z.to_nat (bit b0 + 2 * bit b1)) c f0 in if b2 then fopp x else x)).
Proof. intros PF b0 b1 b2 c H k. destruct c as [|x0 [|x1 [|x2 [|x3 [|]]]]]; try discriminate H. etransitivity; [exact (lookup3_spec (2 + k) b0 b1 b2 x0 x1 x2 x3)|]. destruct b0, b1, b2; reflexivity. Qed.
Print Assumptions C57_lookup3.
(** 256bitsDirectionHelper *)
Theorem C57_direction : forall (PF : PrimeField) (b : bool) l r, returns f_direction [] [CBool; u32s 8; u32s 8] (u32s 16) [VBool b; uarr l; uarr r] (uarr (if b then r ++ l else l ++ r)).
Proof. intros PF b l r k. exact (direction_spec (3 + k) b l r). Qed.
Print Assumptions C57_direction.
(** ** The curve a u^2 + v^2 = 1 + d u^2 v^2 *)
Definition point {PF : PrimeField} (P : F * F) : value_ := farr [fst P; snd P].
(** the addition law (see Edwards.v), unless a denominator is zero: then there is no result *)
Theorem C57_add : forall (PF : PrimeField) c P Q,
  (ed_defined (pd c) P Q -> returns f_edadd [] [pt; pt; bjj] pt [point P; point Q; vparams c] (point (ed_sum (pa c) (pd c) P Q))) /\
  (~ ed_defined (pd c) P Q -> forall k, scall std (4 + k) f_edadd [] [pt; pt; bjj] pt [point P; point Q; vparams c] = Stuck).
Proof. intros PF c P Q. split; [intros H k; exact (edadd_spec c (3 + k) P Q H)|intros H k; exact (edadd_undefined c (3 + k) P Q H)]. Qed.
Print Assumptions C57_add.
Theorem C57_negate : forall (PF : PrimeField) P, returns f_ednegate [] [pt] pt [point P] (point (fopp (fst P), snd P)).
Proof. intros PF P k. exact (ednegate_spec (3 + k) P). Qed.
Print Assumptions C57_negate.
Theorem C57_on_curve : forall (PF : PrimeField) c P,
  (on_curve (pa c) (pd c) P -> returns f_oncurve [] [pt; bjj] CBool [point P; vparams c] (VBool true)) /\
  (~ on_curve (pa c) (pd c) P -> rejects_ f_oncurve [] [pt; bjj] CBool [point P; vparams c]).
Proof. intros PF c P. split; intros H k; [exact (oncurve_spec c (3 + k) P H)|exact (oncurve_rejects c (3 + k) P H)]. Qed.
Print Assumptions C57_on_curve.
(** a is a square, d is not, and the field is not of characteristic 2 *)
Definition complete_curve {PF : PrimeField} (c : params) : Prop := (exists s : F, pa c = PField.fmul s s) /\ (forall x : F, PField.fmul x x <> pd c) /\ PField.fadd PField.f1 PField.f1 <> f0.
(** On such a curve the points form a commutative group, addition is total. *)
Theorem C57_group : forall (PF : PrimeField) c, complete_curve c -> forall P Q R, on_curve (pa c) (pd c) P -> on_curve (pa c) (pd c) Q -> on_curve (pa c) (pd c) R ->
  let add := ed_sum (pa c) (pd c) in
  ed_defined (pd c) P Q /\ on_curve (pa c) (pd c) (add P Q) /\ add P Q = add Q P /\ add (add P Q) R = add P (add Q R) /\ add (f0, PField.f1) P = P /\ add (fopp (fst P), snd P) P = (f0, PField.f1).
Proof.
  intros PF c [[s Ha] [Hd H2]] P Q R HP HQ HR add. unfold add. split; [exact (ed_total _ _ s Ha Hd H2 P Q HP HQ)|]. split; [exact (ed_closed' _ _ s Ha Hd H2 P Q HP HQ)|]. split; [apply ed_comm|]. split; [exact (ed_assoc _ _ s Ha Hd H2 P Q R HP HQ HR)|]. split; [apply (ed_zero_l (pa c) (pd c) P)|exact (ed_opp_l _ _ s Ha Hd H2 P HP)].
Qed.
Print Assumptions C57_group.
(** P + ... + P, n times *)
Definition times {PF : PrimeField} (c : params) (n : nat) (P : F * F) : F * F := Nat.iter n (ed_sum (pa c) (pd c) P) (f0, PField.f1).
(** edwardsScalarMult *)
Theorem C57_scalar_mult : forall (PF : PrimeField) c bs P, complete_curve c -> pinf c = (f0, PField.f1) -> length bs = 256%nat -> on_curve (pa c) (pd c) P ->
  returns f_scalarmult [] [bits_ty 256; pt; bjj] pt [barr bs; point P; vparams c] (point (times c (Z.to_nat (digits 2 (map bit bs))) P)).
Proof. intros PF c bs P [[s Ha] [Hd H2]] Hi L H k. rewrite <- bv_digits. exact (scalarmult_spec c s Ha Hd H2 (2 + k) P bs Hi L H). Qed.
Print Assumptions C57_scalar_mult.
(** edwardsOrderCheck: whether the cofactor 8 does not kill the point *)
Theorem C57_order_check : forall (PF : PrimeField) c P, complete_curve c -> pc c = of_Z 8 -> on_curve (pa c) (pd c) P ->
  exists b, returns f_ordercheck [] [pt; bjj] CBool [point P; vparams c] (VBool b) /\ (b = true <-> times c 8 P <> (f0, PField.f1)).
Proof.
  intros PF c P [[s Ha] [Hd H2]] H8 H. destruct (ordercheck_spec c s Ha Hd H2 0 P H8 H) as (b & E & B). exists b. split; [|exact B]. intros k.
  destruct (ordercheck_spec c s Ha Hd H2 (2 + k) P H8 H) as (b' & E' & B'). replace b with b'; [exact E'|]. destruct b, b'; try reflexivity; [apply B', B|symmetry; apply B, B']; reflexivity.
Qed.
Print Assumptions C57_order_check.
(** The curve of babyjubjubParams.zok over the scalar field of bn254 *)
Theorem C57_babyjubjub : complete_curve babyjubjub /\ pinf babyjubjub = (f0, PField.f1) /\ pc babyjubjub = of_Z 8 /\ on_curve (pa babyjubjub) (pd babyjubjub) (pgu babyjubjub, pgv babyjubjub).
Proof.
  split; [split; [exists sqrt_a; exact bjj_a|split; [exact bjj_d|exact bjj_2]]|]. split; [exact bjj_inf|]. split; [reflexivity|]. apply F_ext. vm_compute. reflexivity.
Qed.
Print Assumptions C57_babyjubjub.

(** ** Circuits *)
(** def main(private t0 x0, ..., private tn xn) -> t { return f::<gs>(x0, ..., xn); } *)
Fixpoint params_from {PF : PrimeField} (i : nat) (ts : list cty) : list (rid * cty * bool) := match ts with [] => [] | t :: r => (Src.src i, t, true) :: params_from (S i) r end.
Definition call_main {PF : PrimeField} (f : nat) (gs : list Z) (ts : list cty) (t : cty) : sprog :=
  mkSProg (params_from 0 ts) [] (SCall ts t f (map (fun g => SOp (OUVal W32 g) []) gs) (map (fun q => SId (snd (fst q)) (fst (fst q))) (params_from 0 ts))) t.
Section Circuits.
Context {PF : PrimeField}.
Lemma params_types : forall ts i, map (fun q : rid * cty * bool => snd (fst q)) (params_from i ts) = ts.
Proof. induction ts as [|t ts IH]; intros i; [reflexivity|]. cbn [params_from map fst snd]. rewrite IH. reflexivity. Qed.
Lemma params_not : forall ts i j, (j < i)%nat -> ~ In (Src.src j) (map (fun q : rid * cty * bool => fst (fst q)) (params_from i ts)).
Proof. induction ts as [|t ts IH]; intros i j L J; [exact J|]. cbn [params_from map fst] in J. destruct J as [J|J]; [injection J as J; lia|]. exact (IH (S i) j ltac:(lia) J). Qed.
Lemma params_nodup : forall ts i, NoDup (map (fun q : rid * cty * bool => fst (fst q)) (params_from i ts)).
Proof. induction ts as [|t ts IH]; intros i; cbn [params_from map fst]; constructor; [apply params_not; lia|apply IH]. Qed.
Lemma rbind_other : forall xs vs rho y, ~ In y xs -> rbind rho xs vs y = rho y.
Proof.
  induction xs as [|x xs IH]; intros [|v vs] rho y H; try reflexivity. cbn [rbind]. rewrite IH by (intros J; apply H; right; exact J). unfold rupd. destruct (rid_eqb y x) eqn:E; [|reflexivity]. apply rid_eqb_ok in E. exfalso. apply H. left. symmetry. exact E.
Qed.
Lemma args_eval : forall call ts i vs rho, length vs = length ts ->
  sevals call (rbind rho (map (fun q : rid * cty * bool => fst (fst q)) (params_from i ts)) vs) (map (fun q => SId (snd (fst q)) (fst (fst q))) (params_from i ts)) = Ok ([], vs).
Proof.
  intros call. induction ts as [|t ts IH]; intros i [|v vs] rho L; try discriminate L; [reflexivity|]. injection L as L. cbn [params_from map fst snd rbind]. apply evs_cons; [|exact (IH (S i) vs _ L)]. apply ev_id. rewrite rbind_other by (apply params_not; lia). apply rupd_same.
Qed.
Lemma gens_eval : forall call rho gs, evs call rho (map (fun g => SOp (OUVal W32 g) []) gs) (map (VUint W32) gs).
Proof. intros call rho. induction gs as [|g gs IH]; [apply evs_nil|]. cbn [map]. apply evs_cons; [|exact IH]. eapply ev_op; [apply evs_nil|reflexivity]. Qed.
Lemma main_run : forall funs k f gs ts t vs, length vs = length ts -> srun (scall funs k) (call_main f gs ts t) vs = obnd (scall funs k f gs ts t vs) (fun a => Ok (snd a, fst a)).
Proof.
  intros funs k f gs ts t vs L. unfold srun, call_main. cbn [sargs sbody sret]. unfold sexecs. cbn [exec_list obnd snd fst app]. cbn [seval]. pose proof (gens_eval (scall funs k) (rbind (fun _ => None) (map (fun q => fst (fst q)) (params_from 0 ts)) vs) gs) as G. unfold evs, sevals in G. rewrite G. cbn [obnd].
  pose proof (args_eval (scall funs k) ts 0 vs (fun _ => None) L) as A. unfold sevals in A. rewrite A. cbn [obnd fst snd]. rewrite nums_u. cbn [of_opt obnd]. destruct (scall funs k f gs ts t vs) as [[lg v]| |]; reflexivity.
Qed.
Lemma cbind_other : forall ps S y, ~ In y (map fst ps) -> cbind S ps y = S y.
Proof.
  induction ps as [|p ps IH]; intros S y H; [reflexivity|]. cbn [cbind]. rewrite IH by (intros J; apply H; right; exact J). unfold SrcTy.cput. destruct (rid_eqb y (fst p)) eqn:E; [|reflexivity]. apply rid_eqb_ok in E. exfalso. apply H. left. symmetry. exact E.
Qed.
Lemma args_typed : forall ts i S, xtys (cbind S (map fst (params_from i ts))) (map (fun q => SId (snd (fst q)) (fst (fst q))) (params_from i ts)) ts.
Proof.
  induction ts as [|t ts IH]; intros i S; [apply XNil|]. cbn [params_from map fst snd cbind]. apply XCons; [|apply IH]. apply SrcTy.XId. rewrite cbind_other; [unfold SrcTy.cput; rewrite rid_eqb_refl; reflexivity|]. rewrite map_map. apply params_not. lia.
Qed.
Lemma gens_typed : forall S gs, Forall (fun g => 0 <= g < 2 ^ 32) gs -> xtys S (map (fun g => SOp (OUVal W32 g) []) gs) (repeat SrcTy.U32 (length gs)).
Proof. intros S gs H. induction H as [|g gs Hg H IH]; [apply XNil|]. cbn [map length repeat]. apply XCons; [|exact IH]. eapply XOp; [apply XNil|]. apply YUVal. exact Hg. Qed.
Lemma main_apart : forall f gs ts t, calls_apart std (call_main f gs ts t).
Proof.
  intros f gs ts t. split; [intros f' gs' ts' t' gens ps body ret H; exact (proj2 (std_srcok _ _ _ _ _ _ _ _ H))|]. cbn [call_main sbody sret forallb andb]. cbn [plain]. apply andb_true_intro. split.
  - clear. induction gs as [|g gs IH]; [reflexivity|]. cbn [map forallb]. rewrite IH, andb_true_r. reflexivity.
  - clear. generalize 0%nat. induction ts as [|u ts IH]; intros i; [reflexivity|]. cbn [params_from map forallb]. rewrite IH, andb_true_r. reflexivity.
Qed.
Lemma main_ok_of : forall funs f gs ts t, table_ok funs -> (forall f gs ts t gens params body ret, funs f gs ts t = Some (Here gens params body ret) -> forallb srcok body = true) ->
  Forall good_ty ts -> Forall (fun g => 0 <= g < 2 ^ 32) gs -> source_ok funs (call_main f gs ts t).
Proof.
  intros funs f gs ts t TO TS Ht Hg. split; [exact TO|]. split; [split; [exact TS|reflexivity]|].
  - split; [|apply params_nodup]. split; [cbn [call_main sargs]; rewrite params_types; exact Ht|]. eexists. split; [apply XSnil|]. cbn [call_main sret sretty sargs]. eapply XCall; [apply gens_typed; exact Hg| |apply args_typed]. clear. induction gs as [|g gs IH]; cbn; constructor; [reflexivity|exact IH].
Qed.
Lemma main_ok : forall f gs ts t, Forall good_ty ts -> Forall (fun g => 0 <= g < 2 ^ 32) gs -> source_ok std (call_main f gs ts t).
Proof. intros f gs ts t. apply main_ok_of; [exact std_ok|]. intros f' gs' ts' t' gens ps body ret H. exact (proj1 (std_srcok _ _ _ _ _ _ _ _ H)). Qed.
Lemma main_args : forall f gs ts t, arg_types (call_main f gs ts t) = ts.
Proof. intros f gs ts t. exact (params_types ts 0). Qed.
End Circuits.
(** Whatever satisfies the constraints compiled from a call of a function of the standard library: the arguments are values of the types of the parameters, and the outputs are what
    the function returns on them. If elimination of dead code drops no call of a built-in function with a restricted domain, the function does not reject them. *)
Theorem C57_sound : forall (PF : PrimeField) f gs ts t n q q' w z p1 p2 c (a : env), (131 <= required_bits)%nat -> Forall good_ty ts -> Forall (fun g => 0 <= g < 2 ^ 32) gs ->
  built std n (call_main f gs ts t) q q' w z p1 p2 c -> middle_ok w -> max_ok_prog p2 -> unpacks_checked p2 -> cache_safe p2 -> satisfies a c ->
  exists vs, Forall2 has_type vs ts /\ map (fun x => a (pid x)) (pargs c) = encode_values vs /\
    (forall v, returns f gs ts t vs v -> map (fun i => a (vpub i)) (seq 0 (prim_count t)) = encode v) /\
    (checks_kept p1 = true -> ~ rejects_ f gs ts t vs).
Proof.
  intros PF f gs ts t n q q' w z p1 p2 c a Hr Ht Hg B M Hm Hu Hc Hs. destruct (C52_sound PF std n _ q q' w z p1 p2 c a Hr (main_ok f gs ts t Ht Hg) B M Hm Hu Hc Hs) as (vs & V1 & V2 & V3 & V4). rewrite main_args in V1.
  assert (L : length vs = length ts) by (clear - V1; induction V1; cbn; congruence). exists vs. split; [exact V1|]. split; [exact V2|]. split.
  - intros v H. apply (V4 4%nat v []). rewrite main_run by exact L. pose proof (H 0%nat) as E; change (4 + 0)%nat with 4%nat in E; rewrite E. reflexivity.
  - intros Nr H. apply (V3 Nr (main_apart f gs ts t) 4%nat). rewrite main_run by exact L. pose proof (H 0%nat) as E; change (4 + 0)%nat with 4%nat in E; rewrite E. reflexivity.
Qed.
Print Assumptions C57_sound.
(** If the function returns a value, witness computation succeeds and finds it. *)
Theorem C57_complete : forall (PF : PrimeField) ext f gs ts t n q q' w z p1 p2 c vs v, (131 <= required_bits)%nat -> Forall good_ty ts -> Forall (fun g => 0 <= g < 2 ^ 32) gs ->
  built std n (call_main f gs ts t) q q' w z p1 p2 c -> middle_ok w -> max_ok_prog p2 -> cache_clean p2 -> Forall2 has_type vs ts -> returns f gs ts t vs v ->
  exists a logs, exec_prog (exec_solver ext) (pargs c) (flat_stmts (pstmts c)) (encode_values vs) = Done a logs /\ map (fun i => sget (vpub i) a) (seq 0 (prim_count t)) = map Some (encode v).
Proof.
  intros PF ext f gs ts t n q q' w z p1 p2 c vs v Hr Ht Hg B M Hm Hc Hv H. assert (L : length vs = length ts) by (clear - Hv; induction Hv; cbn; congruence).
  destruct (C52_complete PF ext std n _ q q' w z p1 p2 c 4%nat vs v [] Hr (main_ok f gs ts t Ht Hg) B M Hm Hc) as (a & logs & lz & lgr & A & _ & _ & _ & _ & O & _).
  - rewrite main_args. exact Hv.
  - rewrite main_run by exact L. pose proof (H 0%nat) as E; change (4 + 0)%nat with 4%nat in E; rewrite E. reflexivity.
  - exists a, logs. split; [exact A|exact O].
Qed.
Print Assumptions C57_complete.
(** ** Calls that compile, over bn254 *)
Definition main_pack := @call_main bn254 f_pack [8] [bits_ty 8] CField.
Definition main_add := @call_main bn254 f_edadd [] [pt; pt; bjj] pt.
Definition main_on_curve := @call_main bn254 f_oncurve [] [pt; bjj] CBool.
Definition main_to_u32 := @call_main bn254 f_from_field [] [CField] (CUint W32).
Definition main_words := @call_main bn254 f_bits_to_u32s [64; 2] [bits_ty 64] (u32s 2).
Definition compiles (p : @sprog bn254) : Prop := exists q q' w z p1 p2 c, built std 20 p q q' w z p1 p2 c /\ middle_ok w /\ max_ok_prog p2 /\ cache_clean p2 /\ unpacks_checked p2 /\ cache_safe p2 /\ checks_kept p1 = true.
Lemma compiles_if : forall p, fulls std 20 p && negb (drops_check std 20 p) = true -> uncasts std 20 p -> compiles p.
Proof. intros p H0 U. apply andb_prop in H0 as [H Hd]. apply negb_true_iff in Hd. destruct (fulls_ok std 20 p H U) as (q & q' & w & z & p1 & p2 & c & A & B & _ & C & D & E & G & I). exists q, q', w, z, p1, p2, c. repeat (split; [assumption|]). exact (I Hd). Qed.
Ltac compile_it := apply compiles_if; [vm_compute; reflexivity|vm_compute; repeat (first [exact Logic.I|intro; discriminate|split])].
Example C57_nonvacuous : (131 <= @required_bits bn254)%nat /\ compiles main_pack /\ compiles main_add /\ compiles main_on_curve /\ compiles main_to_u32 /\ compiles main_words /\
  returns f_pack [8] [bits_ty 8] CField [@barr bn254 [true; false; true; false; false; false; false; true]] (VField (of_Z 161)) /\
  returns f_from_field [] [CField] (CUint W32) [@VField bn254 (of_Z (2 ^ 40 + 5))] (VUint W32 5) /\
  rejects_ f_unpack [8] [CField] (bits_ty 8) [@VField bn254 (of_Z 256)] /\ rejects_ f_oncurve [] [pt; bjj] CBool [point (of_Z 1, of_Z 1); vparams babyjubjub].
Proof.
  assert (R : (3 <= @required_bits bn254)%nat) by (apply Nat.leb_le; vm_compute; reflexivity). assert (R2 : N32 (@required_bits bn254) < 2 ^ 32) by (apply Z.ltb_lt; vm_compute; reflexivity).
  split; [apply Nat.leb_le; vm_compute; reflexivity|]. split; [compile_it|]. split; [compile_it|]. split; [compile_it|]. split; [compile_it|]. split; [compile_it|].
  split; [|split; [|split]].
  - apply (C57_pack bn254 [true; false; true; false; false; false; false; true]). reflexivity.
  - apply (C57_from_field bn254 W32 (of_Z (2 ^ 40 + 5)) R R2). apply Nat.leb_le. vm_compute. reflexivity.
  - apply (C57_unpack bn254 8 (of_Z 256) R R2); [apply Nat.leb_le; vm_compute; reflexivity|]. apply Z.leb_le. vm_compute. reflexivity.
  - apply (C57_on_curve bn254 babyjubjub (of_Z 1, of_Z 1)). intros E. apply (f_equal fval) in E. vm_compute in E. discriminate E.
Qed.
(** The comment of utils/pack/bool/unpack128.zok says: "if the input is larger than 2**128 - 1 the output is truncated". unpack128 is unpack<128>: it rejects such an input. *)
Theorem C57_unpack128_truncates_refuted : exists x : @F bn254, 2 ^ 128 <= fval x /\ rejects_ f_unpack [128] [CField] (bits_ty 128) [VField x].
Proof.
  exists (of_Z (2 ^ 128)). split; [apply Z.leb_le; vm_compute; reflexivity|]. apply (C57_unpack bn254 128 (of_Z (2 ^ 128))).
  - apply Nat.leb_le; vm_compute; reflexivity.
  - apply Z.ltb_lt; vm_compute; reflexivity.
  - apply Nat.leb_le; vm_compute; reflexivity.
  - apply Z.leb_le; vm_compute; reflexivity.
Qed.
Print Assumptions C57_unpack128_truncates_refuted.
