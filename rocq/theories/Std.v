(** Functions of the standard library (zokrates_stdlib/stdlib), transcribed in the language of Src.v, instance by instance: [std f gs ts t] is the
    body of function [f] for the values [gs] of its generic parameters. Identifiers are numbered in the order of their first occurrence.
    Simplifications: constants of other modules (FIELD_SIZE_IN_BITS, the curve parameters passed by the caller) are literals or arguments; a conditional
    on two constants (in unpack) is replaced by the branch taken; numeric literals have their inferred types. *)
From Coq Require Import String Ascii.
From Coq Require Import ZArith NArith List Bool Lia.
From Verif Require Import PField Concrete Interp Bits Flat Zir Codegen Str Abi Typed Writes Src SrcTy.
Import ListNotations.
Open Scope string_scope.
Open Scope list_scope.
Open Scope Z_scope.

Section Std.
Context {PF : PrimeField}.

(** ** Types *)
Definition bits_ty (n : nat) : cty := CArray CBool n.
Definition pt : cty := CArray CField 2.
Definition u32s (n : nat) : cty := CArray U32 n.
(** ecc/babyjubjubParams.zok l.4-24 *)
Definition bjj_ms : list (string * cty) :=
  [("JUBJUB_C", CField); ("JUBJUB_A", CField); ("JUBJUB_D", CField); ("MONT_A", CField); ("MONT_B", CField); ("INFINITY", pt); ("Gu", CField); ("Gv", CField)].
Definition bjj : cty := CStruct bjj_ms.
Fixpoint ty_eqb (a b : cty) {struct a} : bool :=
  match a, b with
  | CField, CField | CBool, CBool => true
  | CUint v, CUint w => Nat.eqb (uwn v) (uwn w)
  | CArray t n, CArray u m => ty_eqb t u && Nat.eqb n m
  | CStruct l, CStruct m => (fix go (l m : list (string * cty)) : bool := match l, m with [], [] => true | (x, t) :: l, (y, u) :: m => String.eqb x y && ty_eqb t u && go l m | _, _ => false end) l m
  | _, _ => false
  end.
Fixpoint tys_eqb (a b : list cty) : bool := match a, b with [], [] => true | t :: a, u :: b => ty_eqb t u && tys_eqb a b | _, _ => false end.

(** ** Expressions *)
Definition fl (z : Z) : sexp := SOp (OFVal (of_Z z)) [].
Definition ul (z : Z) : sexp := SOp (OUVal W32 z) [].
Definition bl (b : bool) : sexp := SOp (OBVal b) [].
Definition iv (t : cty) (x : nat) : sexp := SId t (src x).
Definition fv (x : nat) : sexp := iv CField x.
Definition uv (x : nat) : sexp := iv U32 x.
Definition fadd_ (a b : sexp) : sexp := SOp (OFBin FAdd) [a; b].
Definition fsub_ (a b : sexp) : sexp := SOp (OFBin FSub) [a; b].
Definition fmul_ (a b : sexp) : sexp := SOp (OFBin FMul) [a; b].
Definition fdiv_ (a b : sexp) : sexp := SOp (OFBin FDiv) [a; b].
Definition uadd_ (a b : sexp) : sexp := SOp (OUBin W32 UAdd) [a; b].
Definition usub_ (a b : sexp) : sexp := SOp (OUBin W32 USub) [a; b].
Definition umul_ (a b : sexp) : sexp := SOp (OUBin W32 UMul) [a; b].
Definition sel_ (t : cty) (a i : sexp) : sexp := SOp (OSel t) [a; i].
Definition pow2_ (e : sexp) : sexp := SPar KPow (fl 2) [e].
Definition eq_ (a b : sexp) : sexp := SOp OEq [a; b].
Definition mem_ (e : sexp) (m : string) : sexp := SOp (OMem bjj_ms m) [e].
Definition arr2 (a b : sexp) : sexp := SOp (OArr CField 2 [false; false]) [a; b].
Definition len (n : nat) : Z := Z.of_nat n.

(** ** Names *)
Definition f_unpack_embed := 0%nat.        (* EMBED unpack<N> *)
Definition f_bit_array_le := 1%nat.        (* EMBED bit_array_le<N> *)
Definition f_to_bits := 2%nat.             (* EMBED u8_to_bits, u16_to_bits, u32_to_bits, u64_to_bits *)
Definition f_from_bits := 3%nat.           (* EMBED u8_from_bits, ... *)
Definition f_unpack_unchecked := 4%nat.
Definition f_unpack := 5%nat.
Definition f_pack := 6%nat.
Definition f_to_field := 7%nat.            (* u8_to_field, ... *)
Definition f_from_field := 8%nat.          (* field_to_u8, ... *)
Definition f_bits_to_u32s := 9%nat.
Definition f_u32s_to_bits := 10%nat.
Definition f_lookup1 := 11%nat.
Definition f_lookup2 := 12%nat.
Definition f_lookup3 := 13%nat.
Definition f_direction := 14%nat.
Definition f_edadd := 15%nat.
Definition f_ednegate := 16%nat.
Definition f_oncurve := 17%nat.
Definition f_ordercheck := 18%nat.
Definition f_scalarmult := 19%nat.
Definition f_pack_u32 := 20%nat.

(** ** Functions *)
(** utils/pack/bool/unpack_unchecked.zok l.5-8: def main<N>(field i) -> bool[N] { bool[N] res = unpack(i); return res; } *)
Definition unpack_unchecked (n : nat) : sfun :=
  Here [1%nat] [(0%nat, CField)] [SDef (src 2) (bits_ty n) (SCall [CField] (bits_ty n) f_unpack_embed [uv 1] [fv 0])] (iv (bits_ty n) 2).
(** utils/pack/bool/unpack.zok l.6-12. For N < FIELD_SIZE_IN_BITS the assertion is assert(true); the table has no instance for N > FIELD_SIZE_IN_BITS. *)
Definition unpack_ (n : nat) : sfun :=
  Here [1%nat] [(0%nat, CField)]
    [SDef (src 2) (bits_ty n) (SCall [CField] (bits_ty n) f_unpack_unchecked [uv 1] [fv 0]);
     SAssert (if Nat.ltb n required_bits then bl true
              else SCall [bits_ty n; bits_ty n] CBool f_bit_array_le [uv 1] [iv (bits_ty n) 2; SCall [CField] (bits_ty n) f_unpack_unchecked [ul (len required_bits)] [fl (-1)]]) 0]
    (iv (bits_ty n) 2).
(** utils/pack/bool/pack.zok l.1-8 *)
Definition pack_ (n : nat) : sfun :=
  Here [1%nat] [(0%nat, bits_ty n)]
    [SDef (src 2) CField (fl 0);
     SFor (src 3) (ul 0) (uv 1)
       [SDef (src 4) U32 (usub_ (uv 1) (uadd_ (uv 3) (ul 1)));
        SDef (src 2) CField (fadd_ (fv 2) (SCond (sel_ CBool (iv (bits_ty n) 0) (uv 4)) (pow2_ (uv 3)) (fl 0)))]]
    (fv 2).
(** utils/casts/u32_to_field.zok l.3-11, and u8, u16, u64 *)
Definition to_field (w : uwidth) : sfun :=
  Here [] [(0%nat, CUint w)]
    [SDef (src 1) (bits_ty (uwn w)) (SCall [CUint w] (bits_ty (uwn w)) f_to_bits [] [iv (CUint w) 0]);
     SDef (src 2) CField (fl 0);
     SFor (src 3) (ul 0) (ul (len (uwn w)))
       [SDef (src 4) U32 (usub_ (usub_ (ul (len (uwn w))) (uv 3)) (ul 1));
        SDef (src 2) CField (fadd_ (fv 2) (SCond (sel_ CBool (iv (bits_ty (uwn w)) 1) (uv 3)) (pow2_ (uv 4)) (fl 0)))]]
    (fv 2).
(** utils/casts/field_to_u32.zok l.5-8, and u8, u16, u64 *)
Definition from_field (w : uwidth) : sfun :=
  Here [] [(0%nat, CField)]
    [SDef (src 1) (bits_ty required_bits) (SCall [CField] (bits_ty required_bits) f_unpack [ul (len required_bits)] [fv 0])]
    (SCall [bits_ty (uwn w)] (CUint w) f_from_bits [] [SPar (KSlice CBool required_bits (uwn w)) (iv (bits_ty required_bits) 1) [ul (len required_bits - len (uwn w)); ul (len required_bits)]]).
(** utils/casts/bool_array_to_u32_array.zok l.5-15 *)
Definition bits_to_u32s (n p : nat) : sfun :=
  Here [1%nat; 2%nat] [(0%nat, bits_ty n)]
    [SAssert (eq_ (uv 1) (umul_ (ul 32) (uv 2))) 0;
     SDef (src 3) (u32s p) (SPar (KRep U32 p) (ul 0) [uv 2]);
     SFor (src 4) (ul 0) (uv 2)
       [SSet (src 3) (u32s p) [SASel (uv 4)] (SCall [bits_ty 32] U32 f_from_bits [] [SPar (KSlice CBool n 32) (iv (bits_ty n) 0) [umul_ (ul 32) (uv 4); umul_ (ul 32) (uadd_ (uv 4) (ul 1))]])]]
    (iv (u32s p) 3).
(** utils/casts/u32_array_to_bool_array.zok l.3-16 *)
Definition u32s_to_bits (n p : nat) : sfun :=
  Here [1%nat; 2%nat] [(0%nat, u32s n)]
    [SAssert (eq_ (uv 2) (umul_ (ul 32) (uv 1))) 0;
     SDef (src 3) (bits_ty p) (SPar (KRep CBool p) (bl false) [uv 2]);
     SFor (src 4) (ul 0) (uv 1)
       [SDef (src 5) (bits_ty 32) (SCall [U32] (bits_ty 32) f_to_bits [] [sel_ U32 (iv (u32s n) 0) (uv 4)]);
        SFor (src 6) (ul 0) (ul 32)
          [SSet (src 3) (bits_ty p) [SASel (uadd_ (umul_ (uv 4) (ul 32)) (uv 6))] (sel_ CBool (iv (bits_ty 32) 5) (uv 6))]]]
    (iv (bits_ty p) 3).
(** utils/pack/u32/pack.zok l.5-8: bool[N * 32] bits = to_bits(input); return pack(bits); *)
Definition pack_u32 (n : nat) : sfun :=
  Here [1%nat] [(0%nat, u32s n)]
    [SDef (src 2) (bits_ty (32 * n)) (SCall [u32s n] (bits_ty (32 * n)) f_u32s_to_bits [uv 1; umul_ (uv 1) (ul 32)] [iv (u32s n) 0])]
    (SCall [bits_ty (32 * n)] CField f_pack [umul_ (uv 1) (ul 32)] [iv (bits_ty (32 * n)) 2]).
(** utils/multiplexer/lookup1bit.zok l.2-5 *)
Definition lookup1 : sfun :=
  Here [] [(0%nat, CBool); (1%nat, pt)] [SDef (src 2) CField (SCond (iv CBool 0) (sel_ CField (iv pt 1) (ul 1)) (sel_ CField (iv pt 1) (ul 0)))] (fv 2).
(** utils/multiplexer/lookup2bit.zok l.3-7 *)
Definition q4 : cty := CArray CField 4.
Definition c_ (i : Z) : sexp := sel_ CField (iv q4 1) (ul i).
Definition lookup2 : sfun :=
  Here [] [(0%nat, bits_ty 2); (1%nat, q4)]
    [SDef (src 2) CField (fadd_ (fsub_ (c_ 1) (c_ 0)) (SCond (sel_ CBool (iv (bits_ty 2) 0) (ul 1)) (fadd_ (fsub_ (fsub_ (c_ 3) (c_ 2)) (c_ 1)) (c_ 0)) (fl 0)));
     SDef (src 3) CField (fsub_ (fadd_ (SCond (sel_ CBool (iv (bits_ty 2) 0) (ul 0)) (fv 2) (fl 0)) (c_ 0)) (SCond (sel_ CBool (iv (bits_ty 2) 0) (ul 1)) (fadd_ (fsub_ (fl 0) (c_ 2)) (c_ 0)) (fl 0)))]
    (fv 3).
(** utils/multiplexer/lookup3bitSigned.zok l.5-9 *)
Definition lookup3 : sfun :=
  Here [] [(0%nat, bits_ty 3); (1%nat, q4)]
    [SDef (src 2) CField (SCall [bits_ty 2; q4] CField f_lookup2 [] [SOp (OArr CBool 2 [false; false]) [sel_ CBool (iv (bits_ty 3) 0) (ul 0); sel_ CBool (iv (bits_ty 3) 0) (ul 1)]; iv q4 1]);
     SDef (src 3) CField (fsub_ (fv 2) (fmul_ (fl 2) (SCond (sel_ CBool (iv (bits_ty 3) 0) (ul 2)) (fv 2) (fl 0))))]
    (fv 3).
(** hashes/utils/256bitsDirectionHelper.zok l.2-4 *)
Definition direction : sfun :=
  Here [] [(0%nat, CBool); (1%nat, u32s 8); (2%nat, u32s 8)] []
    (SCond (iv CBool 0) (SOp (OArr U32 16 [true; true]) [iv (u32s 8) 2; iv (u32s 8) 1]) (SOp (OArr U32 16 [true; true]) [iv (u32s 8) 1; iv (u32s 8) 2])).
(** ecc/edwardsAdd.zok l.6-20 *)
Definition dterm : sexp := fmul_ (fmul_ (fmul_ (fmul_ (fv 4) (fv 5)) (fv 7)) (fv 6)) (fv 8).   (* d*u1*u2*v1*v2 *)
Definition edadd : sfun :=
  Here [] [(0%nat, pt); (1%nat, pt); (2%nat, bjj)]
    [SDef (src 3) CField (mem_ (iv bjj 2) "JUBJUB_A");
     SDef (src 4) CField (mem_ (iv bjj 2) "JUBJUB_D");
     SDef (src 5) CField (sel_ CField (iv pt 0) (ul 0));
     SDef (src 6) CField (sel_ CField (iv pt 0) (ul 1));
     SDef (src 7) CField (sel_ CField (iv pt 1) (ul 0));
     SDef (src 8) CField (sel_ CField (iv pt 1) (ul 1));
     SDef (src 9) CField (fdiv_ (fadd_ (fmul_ (fv 5) (fv 8)) (fmul_ (fv 6) (fv 7))) (fadd_ (fl 1) dterm));
     SDef (src 10) CField (fdiv_ (fsub_ (fmul_ (fv 6) (fv 8)) (fmul_ (fmul_ (fv 3) (fv 5)) (fv 7))) (fsub_ (fl 1) dterm))]
    (arr2 (fv 9) (fv 10)).
(** ecc/edwardsNegate.zok l.4-9 *)
Definition ednegate : sfun :=
  Here [] [(0%nat, pt)] [SDef (src 1) CField (sel_ CField (iv pt 0) (ul 0)); SDef (src 2) CField (sel_ CField (iv pt 0) (ul 1))] (arr2 (SOp OFNeg [fv 1]) (fv 2)).
(** ecc/edwardsOnCurve.zok l.7-17 *)
Definition oncurve : sfun :=
  Here [] [(0%nat, pt); (1%nat, bjj)]
    [SDef (src 2) CField (mem_ (iv bjj 1) "JUBJUB_A");
     SDef (src 3) CField (mem_ (iv bjj 1) "JUBJUB_D");
     SDef (src 4) CField (fmul_ (sel_ CField (iv pt 0) (ul 0)) (sel_ CField (iv pt 0) (ul 0)));
     SDef (src 5) CField (fmul_ (sel_ CField (iv pt 0) (ul 1)) (sel_ CField (iv pt 0) (ul 1)));
     SDef (src 6) CField (fmul_ (fv 4) (fv 5));
     SAssert (eq_ (fadd_ (fmul_ (fv 2) (fv 4)) (fv 5)) (fadd_ (fl 1) (fmul_ (fv 3) (fv 6)))) 0]
    (bl true).
(** ecc/edwardsOrderCheck.zok l.12-27 *)
Definition call_add (a b c : sexp) : sexp := SCall [pt; pt; bjj] pt f_edadd [] [a; b; c].
Definition ordercheck : sfun :=
  Here [] [(0%nat, pt); (1%nat, bjj)]
    [SDef (src 2) CField (mem_ (iv bjj 1) "JUBJUB_C");
     SAssert (eq_ (fv 2) (fl 8)) 0;
     SDef (src 3) pt (call_add (iv pt 0) (iv pt 0) (iv bjj 1));
     SDef (src 3) pt (call_add (iv pt 3) (iv pt 3) (iv bjj 1));
     SDef (src 3) pt (call_add (iv pt 3) (iv pt 3) (iv bjj 1))]
    (SOp ONot [SOp (OBBin BAnd) [eq_ (sel_ CField (iv pt 3) (ul 0)) (fl 0); eq_ (sel_ CField (iv pt 3) (ul 1)) (fl 1)]]).
(** ecc/edwardsScalarMult.zok l.11-26 *)
Definition scalarmult : sfun :=
  Here [] [(0%nat, bits_ty 256); (1%nat, pt); (2%nat, bjj)]
    [SDef (src 3) pt (mem_ (iv bjj 2) "INFINITY");
     SDef (src 4) pt (iv pt 1);
     SDef (src 5) pt (iv pt 3);
     SFor (src 6) (ul 0) (ul 256)
       [SDef (src 7) U32 (usub_ (ul 255) (uv 6));
        SDef (src 8) pt (call_add (iv pt 5) (iv pt 4) (iv bjj 2));
        SDef (src 5) pt (SCond (sel_ CBool (iv (bits_ty 256) 0) (uv 7)) (iv pt 8) (iv pt 5));
        SDef (src 4) pt (call_add (iv pt 4) (iv pt 4) (iv bjj 2))];
     SAssert (SCall [pt; bjj] CBool f_oncurve [] [iv pt 5; iv bjj 2]) 0]
    (iv pt 5).

(** ** The table *)
(** sizes of arrays and of generic parameters are u32 *)
Definition size_ok (g : Z) : bool := (0 <=? g) && (g <? 2 ^ 32).
Definition width_of (n : nat) : option uwidth := match n with 8 => Some W8 | 16 => Some W16 | 32 => Some W32 | 64 => Some W64 | _ => None end%nat.
Definition wide_enough (n : nat) : bool := Nat.leb n required_bits && (2 ^ Z.of_nat (n - 1) <? pp).
(** The functions with a signature for each width are told apart by their signature. *)
Definition std_sig (f : nat) (gs : list Z) (ts : list cty) (t : cty) : option (list cty * cty * sfun) :=
  match f, gs, ts, t with
  | 0, [g], _, _ => if size_ok g && wide_enough (Z.to_nat g) then Some ([CField], bits_ty (Z.to_nat g), Flat (EUnpack (Z.to_nat g)) (bits_ty (Z.to_nat g))) else None
  | 1, [g], _, _ => if size_ok g && Nat.leb (Z.to_nat g) required_bits then Some ([bits_ty (Z.to_nat g); bits_ty (Z.to_nat g)], CBool, Flat (EBitLe (Z.to_nat g)) CBool) else None
  | 2, [], [CUint w], _ => Some ([CUint w], bits_ty (uwn w), Flat (EToBits (uwn w)) (bits_ty (uwn w)))
  | 3, [], _, CUint w => Some ([bits_ty (uwn w)], CUint w, Flat (EFromBits (uwn w)) (CUint w))
  | 4, [g], _, _ => if size_ok g && wide_enough (Z.to_nat g) then Some ([CField], bits_ty (Z.to_nat g), unpack_unchecked (Z.to_nat g)) else None
  | 5, [g], _, _ => if size_ok g && wide_enough (Z.to_nat g) then Some ([CField], bits_ty (Z.to_nat g), unpack_ (Z.to_nat g)) else None
  | 6, [g], _, _ => if size_ok g then Some ([bits_ty (Z.to_nat g)], CField, pack_ (Z.to_nat g)) else None
  | 7, [], [CUint w], _ => Some ([CUint w], CField, to_field w)
  | 8, [], _, CUint w => if size_ok (len required_bits) && wide_enough required_bits && Nat.leb (uwn w) required_bits then Some ([CField], CUint w, from_field w) else None
  | 9, [g; h], _, _ => if size_ok g && size_ok h then Some ([bits_ty (Z.to_nat g)], u32s (Z.to_nat h), bits_to_u32s (Z.to_nat g) (Z.to_nat h)) else None
  | 10, [g; h], _, _ => if size_ok g && size_ok h then Some ([u32s (Z.to_nat g)], bits_ty (Z.to_nat h), u32s_to_bits (Z.to_nat g) (Z.to_nat h)) else None
  | 11, [], _, _ => Some ([CBool; pt], CField, lookup1)
  | 12, [], _, _ => Some ([bits_ty 2; q4], CField, lookup2)
  | 13, [], _, _ => Some ([bits_ty 3; q4], CField, lookup3)
  | 14, [], _, _ => Some ([CBool; u32s 8; u32s 8], u32s 16, direction)
  | 15, [], _, _ => Some ([pt; pt; bjj], pt, edadd)
  | 16, [], _, _ => Some ([pt], pt, ednegate)
  | 17, [], _, _ => Some ([pt; bjj], CBool, oncurve)
  | 18, [], _, _ => Some ([pt; bjj], CBool, ordercheck)
  | 19, [], _, _ => Some ([bits_ty 256; pt; bjj], pt, scalarmult)
  | 20, [g], _, _ => if size_ok (32 * g) then Some ([u32s (Z.to_nat g)], CField, pack_u32 (Z.to_nat g)) else None
  | _, _, _, _ => None
  end%nat.
Definition std : ftable := fun f gs ts t =>
  match std_sig f gs ts t with Some (ts', t', d) => if tys_eqb ts ts' && ty_eqb t t' then Some d else None | None => None end.

Lemma ty_eqb_ok : forall a b, ty_eqb a b = true -> a = b.
Proof.
  induction a as [| |w|ty n IH|ts IH|ms IH|] using cty_ind'; intros b H; destruct b; try discriminate H; cbn [ty_eqb] in H.
  - reflexivity.
  - reflexivity.
  - destruct w, w0; try discriminate H; reflexivity.
  - apply andb_prop in H as [H1 H2]. apply Nat.eqb_eq in H2. rewrite (IH _ H1), H2. reflexivity.
  - f_equal. revert ms0 H. induction IH as [|[x t] l I1 I2 IHl]; intros [|[y u] m] H; try discriminate H; [reflexivity|]. apply andb_prop in H as [H H2]. apply andb_prop in H as [H0 H1]. apply String.eqb_eq in H0. cbn [snd] in I1. rewrite (I1 _ H1), H0, (IHl m H2). reflexivity.
Qed.
Lemma tys_eqb_ok : forall a b, tys_eqb a b = true -> a = b.
Proof. induction a as [|t a IH]; intros [|u b] H; try discriminate H; [reflexivity|]. cbn [tys_eqb] in H. apply andb_prop in H as [H1 H2]. rewrite (ty_eqb_ok _ _ H1), (IH _ H2). reflexivity. Qed.
Lemma std_inv : forall f gs ts t d, std f gs ts t = Some d -> std_sig f gs ts t = Some (ts, t, d).
Proof.
  intros f gs ts t d H. unfold std in H. destruct (std_sig f gs ts t) as [[[ts' t'] d']|]; [|discriminate H]. destruct (tys_eqb ts ts' && ty_eqb t t') eqn:E; [|discriminate H]. apply andb_prop in E as [E1 E2]. rewrite (tys_eqb_ok _ _ E1), (ty_eqb_ok _ _ E2). injection H as ->. reflexivity.
Qed.
Lemma std_intro : forall f gs ts t d, std_sig f gs ts t = Some (ts, t, d) -> tys_eqb ts ts = true -> ty_eqb t t = true -> std f gs ts t = Some d.
Proof. intros f gs ts t d H E1 E2. unfold std. rewrite H, E1, E2. reflexivity. Qed.
End Std.
