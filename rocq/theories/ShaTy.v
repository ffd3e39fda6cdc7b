(** The functions of the SHA-256 library (Sha.v) meet the conditions of C50 and C52 on the functions of a program, for all sizes. *)
From Coq Require Import String Ascii.
From Coq Require Import ZArith NArith List Bool Lia.
From Verif Require Import PField Concrete Interp Bits Zir CgProg UintOpt Str Abi Typed Writes Src SrcTy TProp TPropProg PropTProp Reduce ReduceRen ReduceExp ReduceSimple ReduceBody PropReduce Std StdRun StdSpec StdTy Sha ShaPad.
Import ListNotations.
Open Scope string_scope.
Open Scope list_scope.
Open Scope Z_scope.

Section ShaTy.
Context {PF : PrimeField}.
Lemma ones_ty : forall ty (l : list Z) ts, ts = map (fun _ => ty) l -> arr_ty ty (map (fun _ => false) l) ts (length l).
Proof. intros ty l ts ->. induction l as [|x l IH]; [apply ATnil|]. cbn [map length]. apply ATone. exact IH. Qed.
Lemma ul_tys : forall S l, Forall (fun x => 0 <= x < 2 ^ 32) l -> xtys S (map ul l) (map (fun _ => SrcTy.U32) l).
Proof. intros S l H. induction H as [|x l Hx H IH]; [apply XNil|]. cbn [map]. apply XCons; [|exact IH]. unfold ul. eapply XOp; [apply XNil|]. apply YUVal. exact Hx. Qed.
Lemma lits_ty : forall S l n, Forall (fun x => 0 <= x < 2 ^ 32) l -> length l = n -> xty S (lits l) (u32s n).
Proof. intros S l n H <-. unfold lits, u32s. eapply XOp; [apply ul_tys, H|]. apply YArr. apply ones_ty. reflexivity. Qed.
Definition in32 (l : list Z) : bool := forallb (fun x => (0 <=? x) && (x <? 2 ^ 32)) l.
Lemma in32_ok : forall l, in32 l = true -> Forall (fun x => 0 <= x < 2 ^ 32) l.
Proof. intros l H. apply Forall_forall. intros x J. pose proof (proj1 (forallb_forall _ _) H x J) as Q. cbn beta in Q. apply andb_prop in Q as [A B]. apply Z.leb_le in A. apply Z.ltb_lt in B. split; assumption. Qed.
Lemma msg_u32 : forall g, msg_ok g = true -> 0 <= g < 2 ^ 32 /\ u32r (Z.to_nat g) /\ u32r (512 * nblocks (Z.to_nat g)).
Proof.
  intros g H. unfold msg_ok in H. apply andb_prop in H as [H1 H2]. apply Z.leb_le in H1. apply Z.ltb_lt in H2. unfold u32r. rewrite Z2Nat.id by exact H1. split; [lia|]. split; [lia|].
  pose proof (blocks_le (Z.to_nat g)) as B. unfold len in B. rewrite Nat2Z.inj_mul. apply B. rewrite Z2Nat.id by exact H1. exact H2.
Qed.
Lemma nblocks_to : forall g, msg_ok g = true -> Z.to_nat ((g + 65) / 512 + 1) = nblocks (Z.to_nat g).
Proof. intros g H. apply msg_u32 in H as [H _]. pose proof (nblocks_z (Z.to_nat g)) as E. unfold len in E at 1. rewrite Z2Nat.id in E by lia. rewrite E. apply to_len. Qed.
Lemma pad_ty : forall l, arr_ty CBool [true; false; true; true] [bits_ty l; CBool; bits_ty (zeros l); bits_ty 32] (512 * nblocks l).
Proof. intros l. rewrite <- zeros_eq. replace (l + 1 + zeros l + 32)%nat with (l + S (zeros l + (32 + 0)))%nat by lia. apply ATspread, ATone, ATspread, ATspread, ATnil. Qed.
End ShaTy.
Ltac hsop := lazymatch goal with
  | |- op_ty (OUNot _) _ _ => apply YUNot
  | |- op_ty (OArr _ _ [true; false; true; true]) _ _ => apply YArr; apply pad_ty
  | |- op_ty (OArr _ 64 _) _ _ => apply YArr; exact (ATspread _ _ _ 48 16 (ATspread _ _ _ 0 48 (ATnil _)))
  | |- op_ty (OArr _ 16 [true; true]) _ _ => apply YArr; exact (ATspread _ _ _ 8 8 (ATspread _ _ _ 0 8 (ATnil _)))
  | |- op_ty (OArr _ _ _) _ _ => apply YArr; repeat apply ATone; apply ATnil
  | |- _ => sop
  end.
Ltac hty := lazymatch goal with
  | |- xty _ (lits _) _ => apply lits_ty; [apply in32_ok; vm_compute; reflexivity|reflexivity]
  | |- xty _ (SId _ _) _ => apply XId; reflexivity
  | |- xty _ (SOp _ _) _ => eapply XOp; [hty|hsop]
  | |- xty _ (SPar _ _ _) _ => eapply XPar; [hty|hty|repeat constructor|spty]
  | |- xty _ (SCond _ _ _) _ => eapply XCond; [hty|hty|hty]
  | |- xty _ (SCall _ _ _ _ _) _ => eapply XCall; [hty|repeat constructor|hty]
  | |- xtys _ [] _ => apply XNil
  | |- xtys _ (_ :: _) _ => eapply XCons; [hty|hty]
  | |- xpath _ _ [] _ => apply XPnil
  | |- xpath _ _ (SASel _ :: _) _ => apply XPsel; [snum|hty|hty]
  | |- xstys _ [] _ => apply XSnil
  | |- xstys _ (_ :: _) _ => eapply XScons; [hty|hty]
  | |- xsty _ (SDef _ _ _) _ => apply XDef; [exact Logic.I|first [left; reflexivity|right; reflexivity]|hty]
  | |- xsty _ (SSet _ _ _ _) _ => eapply XSet; [reflexivity|exact Logic.I|hty|hty]
  | |- xsty _ (SAssert _ _) _ => apply XAssert; hty
  | |- xsty _ (SFor _ _ _ _) _ => eapply XFor; [first [left; reflexivity|right; reflexivity]|hty|hty|hty]
  end.
Ltac hunf := unfold call_sha, two_, h8, cur_, w_, rotr_, eq_, sel_, uadd_, usub_, umul_, udiv_, urem_, uxor_, uand_, uor_, unot_, shr_, shl_, bl, ul, uv, iv, blocks, bits_ty, u32s, u8s in *; cbn [length map].
Ltac hsha := shead; hunf; split; hty.
Section Table.
Context {PF : PrimeField}.
Lemma sha_all : forall P : list Z -> list cty -> cty -> sfun -> Prop,
  (forall g, (0 <= g <= 32) -> P [g] [U32] U32 rotr32) ->
  P [] [u32s 64; U32] U32 extend_ -> P [] [U32; U32; U32; U32; U32; U32] U32 temp1 -> P [] [U32; U32; U32] U32 temp2 -> P [] [u32s 16; u32s 8] (u32s 8) shaRound ->
  (forall g, size_ok g = true -> P [g] [blocks (Z.to_nat g)] (u32s 8) (sha256_ (Z.to_nat g))) ->
  P [] [u32s 8; u32s 8] (u32s 8) sha512bit -> P [] [u32s 8; u32s 8; u32s 8; u32s 8] (u32s 8) sha1024bit -> P [] [u32s 8; u32s 8; u32s 8; u32s 8; u32s 8; u32s 8] (u32s 8) sha1536bit ->
  P [] [u32s 8] (u32s 8) sha256bitPadded -> P [] [u32s 8; u32s 8] (u32s 8) sha512bitPadded -> P [] [u32s 8; u32s 8; u32s 8; u32s 8] (u32s 8) sha1024bitPadded ->
  (forall w, P [] [CUint w] (bits_ty (uwn w)) (Flat (EToBits (uwn w)) (bits_ty (uwn w)))) ->
  (forall w, P [] [bits_ty (uwn w)] (CUint w) (Flat (EFromBits (uwn w)) (CUint w))) ->
  (forall g, msg_ok g = true -> P [g; (g + 65) / 512 + 1] [bits_ty (Z.to_nat g)] (blocks (nblocks (Z.to_nat g))) (pad_ (Z.to_nat g) (nblocks (Z.to_nat g)))) ->
  (forall g, msg_ok g = true -> P [g] [bits_ty (Z.to_nat g)] (u32s 8) (sha256Padded (Z.to_nat g))) ->
  (forall g, msg_ok (8 * g) = true -> P [g] [u8s (Z.to_nat g)] (u32s 8) (sha256Bytes (Z.to_nat g))) ->
  forall f gs ts t d, sha f gs ts t = Some d -> P gs ts t d.
Proof.
  intros P. do 17 intro. intros f gs ts t d E. apply sha_inv in E. unfold sha_sig in E.
  repeat match type of E with match ?x with _ => _ end = _ => destruct x eqn:?; try discriminate E end; apply some3 in E as (E1 & E2 & E3); rewrite <- ?E3; rewrite <- ?E2; rewrite <- ?E1.
  all: repeat match goal with E : (_ && _)%bool = true |- _ => apply andb_prop in E as [? ?] | E : Z.leb _ _ = true |- _ => apply Z.leb_le in E | E : Z.eqb _ _ = true |- _ => apply Z.eqb_eq in E; subst end.
  all: auto.
  match goal with H : msg_ok ?g = true |- _ => rewrite (nblocks_to g H); auto end.
Qed.
Theorem sha_ok : table_ok sha.
Proof.
  unfold table_ok. apply (sha_all (fun gs ts t d => fun_ok gs ts t d)).
  - intros g Hg. hsha.
  - hsha.
  - hsha.
  - hsha.
  - hsha.
  - intros g Hg. apply size_u32 in Hg as [Hg Hn]. hsha.
  - hsha.
  - hsha.
  - hsha.
  - hsha.
  - hsha.
  - hsha.
  - intros w. split; [reflexivity|]. split; [reflexivity|]. exists w. split; reflexivity.
  - intros w. split; [reflexivity|]. split; [reflexivity|]. exists w. split; reflexivity.
  - intros g Hg. apply msg_u32 in Hg as [Hg [Hn Hm]]. assert (Hk : u32r (nblocks (Z.to_nat g))) by (unfold u32r in *; lia). hsha.
  - intros g Hg. apply msg_u32 in Hg as [Hg [Hn Hm]]. assert (Hk : u32r (nblocks (Z.to_nat g))) by (unfold u32r in *; lia). hsha.
  - intros g Hg. apply msg_u32 in Hg as [Hg [Hn Hm]]. assert (Hk : u32r (Z.to_nat g)) by (unfold u32r in *; lia). assert (Hk8 : u32r (8 * Z.to_nat g)) by (unfold u32r in *; lia). hsha.
Qed.
Lemma sha_srcok : forall f gs ts t gens params body ret, sha f gs ts t = Some (Here gens params body ret) -> forallb srcok body = true.
Proof.
  assert (G : forall f gs ts t d, sha f gs ts t = Some d -> match d with Here gens params body ret => forallb srcok body = true | _ => True end).
  { apply (sha_all (fun gs ts t d => match d with Here gens params body ret => forallb srcok body = true | _ => True end)); intros; try exact Logic.I; try reflexivity. }
  intros f gs ts t gens params body ret H. exact (G _ _ _ _ _ H).
Qed.
End Table.
