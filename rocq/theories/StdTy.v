(** The functions of the standard library (Std.v) meet the conditions of C50 and C52 on the functions of a program, for all sizes. *)
From Coq Require Import String Ascii.
From Coq Require Import ZArith NArith List Bool Lia.
From Verif Require Import PField Concrete Interp Bits Zir CgProg UintOpt Str Abi Typed Writes Src SrcTy TProp TPropProg PropTProp Reduce ReduceRen ReduceExp ReduceSimple ReduceBody PropReduce Std.
Import ListNotations.
Open Scope string_scope.
Open Scope list_scope.
Open Scope Z_scope.

Section StdTy.
Context {PF : PrimeField}.
Definition u32r (n : nat) : Prop := Z.of_nat n < 2 ^ 32.
Lemma size_u32 : forall g, size_ok g = true -> 0 <= g < 2 ^ 32 /\ u32r (Z.to_nat g).
Proof. intros g H. unfold size_ok in H. apply andb_prop in H as [H1 H2]. apply Z.leb_le in H1. apply Z.ltb_lt in H2. unfold u32r. rewrite Z2Nat.id by exact H1. split; [split; assumption|exact H2]. Qed.
Lemma wide_u : forall n, wide_enough n = true -> unpackable n.
Proof. intros n H. unfold wide_enough in H. apply andb_prop in H as [H1 H2]. apply Nat.leb_le in H1. apply Z.ltb_lt in H2. split; assumption. Qed.
Lemma uwn_small : forall w, Z.of_nat (uwn w) < 2 ^ 32.
Proof. intros []; vm_compute; reflexivity. Qed.
Lemma bjj_good : good_ty bjj.
Proof. unfold bjj. cbn. split; [repeat (constructor; [intros J; cbn in J; intuition discriminate|]); constructor|]. repeat split. Qed.
End StdTy.
Ltac snum := unfold u32r, len in *; first [assumption | apply Z.lt_le_incl; assumption | lia | split; [apply Z.leb_le|apply Z.ltb_lt]; vm_compute; reflexivity | apply Z.leb_le; vm_compute; reflexivity | apply Z.ltb_lt; vm_compute; reflexivity].
Ltac smem := lazymatch goal with |- exists a b, ?ms = a ++ (?m, ?t) :: b /\ ~ In ?m (map fst a) =>
  first [exists []; eexists; split; [reflexivity|intros []] | eexists [_]; eexists; split; [reflexivity|intros J; cbn in J; intuition discriminate] | eexists [_; _]; eexists; split; [reflexivity|intros J; cbn in J; intuition discriminate]
        | eexists [_; _; _; _; _]; eexists; split; [reflexivity|intros J; cbn in J; intuition discriminate]] end.
Ltac sop := lazymatch goal with
  | |- op_ty (OUVal _ _) _ _ => apply YUVal; change (bits_of W32) with 32; snum
  | |- op_ty (OFVal _) _ _ => apply YFVal | |- op_ty (OBVal _) _ _ => apply YBVal | |- op_ty (OFBin _) _ _ => apply YFBin | |- op_ty OEq _ _ => apply YEq | |- op_ty ONot _ _ => apply YNot | |- op_ty (OUBin _ _) _ _ => apply YUBin
  | |- op_ty (OBBin _) _ _ => apply YBBin | |- op_ty OFNeg _ _ => apply YFNeg
  | |- op_ty (OSel _) _ _ => apply YSel; snum
  | |- op_ty (OMem _ _) _ _ => apply YMem; smem
  | |- op_ty (OArr _ 16 _) _ _ => apply YArr; exact (ATspread _ _ _ 8 8 (ATspread _ _ _ 0 8 (ATnil _)))
  | |- op_ty (OArr _ _ _) _ _ => apply YArr; repeat apply ATone; apply ATnil
  end.
Ltac sty := lazymatch goal with
  | |- xty _ (SId _ _) _ => apply XId; reflexivity
  | |- xty _ (SOp _ _) _ => eapply XOp; [sty|sop]
  | |- xty _ (SPar _ _ _) _ => eapply XPar; [sty|sty|repeat constructor|spty]
  | |- xty _ (SCond _ _ _) _ => eapply XCond; [sty|sty|sty]
  | |- xty _ (SCall _ _ _ _ _) _ => eapply XCall; [sty|repeat constructor|sty]
  | |- xtys _ [] _ => apply XNil
  | |- xtys _ (_ :: _) _ => eapply XCons; [sty|sty]
  | |- xpath _ _ [] _ => apply XPnil
  | |- xpath _ _ (SASel _ :: _) _ => apply XPsel; [snum|sty|sty]
  | |- xstys _ [] _ => apply XSnil
  | |- xstys _ (_ :: _) _ => eapply XScons; [sty|sty]
  | |- xsty _ (SDef _ _ _) _ => apply XDef; [exact Logic.I|first [left; reflexivity|right; reflexivity]|sty]
  | |- xsty _ (SSet _ _ _ _) _ => eapply XSet; [reflexivity|exact Logic.I|sty|sty]
  | |- xsty _ (SAssert _ _) _ => apply XAssert; sty
  | |- xsty _ (SFor _ _ _ _) _ => eapply XFor; [first [left; reflexivity|right; reflexivity]|sty|sty|sty]
  end.
Ltac shead := split; [reflexivity|]; split; [reflexivity|]; split; [repeat (constructor; [first [exact Logic.I|exact bjj_good]|]); constructor|]; split; [cbn; repeat (constructor; [intros J; cbn in J; intuition discriminate|]); constructor|]; eexists.
Ltac sunf := unfold call_add, c_, arr2, mem_, eq_, pow2_, sel_, dterm, fadd_, fsub_, fmul_, fdiv_, uadd_, usub_, umul_, bl, fl, ul, uv, fv, iv, bits_ty, u32s, pt, q4, bjj in *.
Section Table.
Context {PF : PrimeField}.
Lemma some3 : forall (A B C : Type) (a a' : A) (b b' : B) (c c' : C), Some (a, b, c) = Some (a', b', c') -> a = a' /\ b = b' /\ c = c'.
Proof. intros. injection H as -> -> ->. auto. Qed.
(** the entries of the table *)
Lemma std_all : forall P : list Z -> list cty -> cty -> sfun -> Prop,
  (forall g, size_ok g = true -> wide_enough (Z.to_nat g) = true -> P [g] [CField] (bits_ty (Z.to_nat g)) (Flat (EUnpack (Z.to_nat g)) (bits_ty (Z.to_nat g)))) ->
  (forall g, size_ok g = true -> (Z.to_nat g <= required_bits)%nat -> P [g] [bits_ty (Z.to_nat g); bits_ty (Z.to_nat g)] CBool (Flat (EBitLe (Z.to_nat g)) CBool)) ->
  (forall w, P [] [CUint w] (bits_ty (uwn w)) (Flat (EToBits (uwn w)) (bits_ty (uwn w)))) ->
  (forall w, P [] [bits_ty (uwn w)] (CUint w) (Flat (EFromBits (uwn w)) (CUint w))) ->
  (forall g, size_ok g = true -> wide_enough (Z.to_nat g) = true -> P [g] [CField] (bits_ty (Z.to_nat g)) (unpack_unchecked (Z.to_nat g))) ->
  (forall g, size_ok g = true -> wide_enough (Z.to_nat g) = true -> P [g] [CField] (bits_ty (Z.to_nat g)) (unpack_ (Z.to_nat g))) ->
  (forall g, size_ok g = true -> P [g] [bits_ty (Z.to_nat g)] CField (pack_ (Z.to_nat g))) ->
  (forall w, P [] [CUint w] CField (to_field w)) ->
  (forall w, size_ok (len required_bits) = true -> (uwn w <= required_bits)%nat -> P [] [CField] (CUint w) (from_field w)) ->
  (forall g h, size_ok g = true -> size_ok h = true -> P [g; h] [bits_ty (Z.to_nat g)] (u32s (Z.to_nat h)) (bits_to_u32s (Z.to_nat g) (Z.to_nat h))) ->
  (forall g h, size_ok g = true -> size_ok h = true -> P [g; h] [u32s (Z.to_nat g)] (bits_ty (Z.to_nat h)) (u32s_to_bits (Z.to_nat g) (Z.to_nat h))) ->
  P [] [CBool; pt] CField lookup1 -> P [] [bits_ty 2; q4] CField lookup2 -> P [] [bits_ty 3; q4] CField lookup3 -> P [] [CBool; u32s 8; u32s 8] (u32s 16) direction ->
  P [] [pt; pt; bjj] pt edadd -> P [] [pt] pt ednegate -> P [] [pt; bjj] CBool oncurve -> P [] [pt; bjj] CBool ordercheck -> P [] [bits_ty 256; pt; bjj] pt scalarmult ->
  (forall g, size_ok (32 * g) = true -> P [g] [u32s (Z.to_nat g)] CField (pack_u32 (Z.to_nat g))) ->
  forall f gs ts t d, std f gs ts t = Some d -> P gs ts t d.
Proof.
  intros P. do 21 intro. intros f gs ts t d E. apply std_inv in E. unfold std_sig in E.
  repeat match type of E with match ?x with _ => _ end = _ => destruct x eqn:?; try discriminate E end; apply some3 in E as (E1 & E2 & E3); rewrite <- ?E3; rewrite <- ?E2; rewrite <- ?E1.
  all: repeat match goal with E : (_ && _)%bool = true |- _ => apply andb_prop in E as [? ?] | E : Nat.leb _ _ = true |- _ => apply Nat.leb_le in E end.
  all: auto.
Qed.
Theorem std_ok : table_ok std.
Proof.
  unfold table_ok. apply (std_all (fun gs ts t d => fun_ok gs ts t d)).
  - intros g Hg Hw. split; [reflexivity|]. split; [reflexivity|]. split; [reflexivity|]. apply wide_u, Hw.
  - intros g Hg Hw. split; [reflexivity|]. split; [reflexivity|]. split; [reflexivity|exact Hw].
  - intros w. split; [reflexivity|]. split; [reflexivity|]. exists w. split; reflexivity.
  - intros w. split; [reflexivity|]. split; [reflexivity|]. exists w. split; reflexivity.
  - intros g Hg Hw. apply size_u32 in Hg as [Hg Hn]. shead. sunf. split; sty.
  - intros g Hg Hw. apply size_u32 in Hg as [Hg Hn]. apply wide_u in Hw as [Hw _]. shead. sunf. destruct (Nat.ltb_spec (Z.to_nat g) required_bits) as [L|L].
    + split; sty.
    + assert (Hr : required_bits = Z.to_nat g) by lia. rewrite Hr. split; sty.
  - intros g Hg. apply size_u32 in Hg as [Hg Hn]. shead. sunf. split; sty.
  - intros w. pose proof (uwn_small w). shead. sunf. split; sty.
  - intros w Hg Hw. unfold len in Hg. apply size_u32 in Hg as [Hg _]. shead. sunf. split; sty.
  - intros g h Hg Hh. apply size_u32 in Hg as [Hg Hn]. apply size_u32 in Hh as [Hh Hm]. shead. sunf. split; sty.
  - intros g h Hg Hh. apply size_u32 in Hg as [Hg Hn]. apply size_u32 in Hh as [Hh Hm]. shead. sunf. split; sty.
  - shead. sunf. split; sty.
  - shead. sunf. split; sty.
  - shead. sunf. split; sty.
  - shead. sunf. split; sty.
  - shead. sunf. split; sty.
  - shead. sunf. split; sty.
  - shead. sunf. split; sty.
  - shead. sunf. split; sty.
  - shead. sunf. split; sty.
  - intros g Hg. apply size_u32 in Hg as [Hg Hn]. shead. sunf. split; sty.
Qed.
Lemma std_srcok : forall f gs ts t gens params body ret, std f gs ts t = Some (Here gens params body ret) -> forallb srcok body = true /\ forallb splain body && plain ret = true.
Proof.
  assert (G : forall f gs ts t d, std f gs ts t = Some d -> match d with Here gens params body ret => forallb srcok body = true /\ forallb splain body && plain ret = true | _ => True end).
  { apply (std_all (fun gs ts t d => match d with Here gens params body ret => forallb srcok body = true /\ forallb splain body && plain ret = true | _ => True end)); intros; try exact Logic.I; try (split; reflexivity).
    unfold unpack_. destruct (Nat.ltb (Z.to_nat g) required_bits); split; reflexivity. }
  intros f gs ts t gens params body ret H. exact (G _ _ _ _ _ H).
Qed.
End Table.
