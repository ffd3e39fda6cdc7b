(** SHA-256 of the standard library (zokrates_stdlib/stdlib/hashes/sha256), transcribed in the language of Src.v, instance by instance, like Std.v.
    Simplifications: the constants K and IV are literals (ConstantResolver inlines them); numeric literals and inferred generic arguments are written out;
    pad has an instance only for the number of blocks its assertion accepts (for any other the sizes of the array assigned to result_in_bits disagree). *)
From Coq Require Import String Ascii.
From Coq Require Import ZArith NArith List Bool Lia.
From Verif Require Import PField Concrete Interp Bits Flat Zir Codegen Str Abi Typed Writes Src SrcTy Std.
Import ListNotations.
Open Scope list_scope.
Open Scope Z_scope.

Section Sha.
Context {PF : PrimeField}.

Definition uxor_ (a b : sexp) : sexp := SOp (OUBin W32 UXor) [a; b].
Definition uand_ (a b : sexp) : sexp := SOp (OUBin W32 UAnd) [a; b].
Definition uor_ (a b : sexp) : sexp := SOp (OUBin W32 UOr) [a; b].
Definition unot_ (a : sexp) : sexp := SOp (OUNot W32) [a].
Definition udiv_ (a b : sexp) : sexp := SOp (OUBin W32 UDiv) [a; b].
Definition urem_ (a b : sexp) : sexp := SOp (OUBin W32 URem) [a; b].
Definition shr_ (e n : sexp) : sexp := SPar (KShr W32) e [n].
Definition shl_ (e n : sexp) : sexp := SPar (KShl W32) e [n].
Definition lits (l : list Z) : sexp := SOp (OArr U32 (length l) (map (fun _ => false) l)) (map ul l).
Definition u8s (n : nat) : cty := CArray (CUint W8) n.
Definition blocks (n : nat) : cty := CArray (u32s 16) n.

(** ** Names *)
Definition g_rotr := 0%nat.
Definition g_extend := 1%nat.
Definition g_temp1 := 2%nat.
Definition g_temp2 := 3%nat.
Definition g_round := 4%nat.        (* shaRound *)
Definition g_sha256 := 5%nat.
Definition g_512 := 6%nat.
Definition g_1024 := 7%nat.
Definition g_1536 := 8%nat.
Definition g_256p := 9%nat.         (* 256bitPadded *)
Definition g_512p := 10%nat.
Definition g_1024p := 11%nat.
Definition g_to_bits := 12%nat.     (* EMBED u8_to_bits, u32_to_bits *)
Definition g_from_bits := 13%nat.   (* EMBED u32_from_bits *)
Definition g_pad := 14%nat.
Definition g_padded := 15%nat.      (* sha256Padded, on bits *)
Definition g_bytes := 16%nat.       (* sha256Padded.zok main, on bytes *)

(** shaRound.zok l.3-12 *)
Definition K_ : list Z := [
  0x428a2f98; 0x71374491; 0xb5c0fbcf; 0xe9b5dba5; 0x3956c25b; 0x59f111f1; 0x923f82a4; 0xab1c5ed5;
  0xd807aa98; 0x12835b01; 0x243185be; 0x550c7dc3; 0x72be5d74; 0x80deb1fe; 0x9bdc06a7; 0xc19bf174;
  0xe49b69c1; 0xefbe4786; 0x0fc19dc6; 0x240ca1cc; 0x2de92c6f; 0x4a7484aa; 0x5cb0a9dc; 0x76f988da;
  0x983e5152; 0xa831c66d; 0xb00327c8; 0xbf597fc7; 0xc6e00bf3; 0xd5a79147; 0x06ca6351; 0x14292967;
  0x27b70a85; 0x2e1b2138; 0x4d2c6dfc; 0x53380d13; 0x650a7354; 0x766a0abb; 0x81c2c92e; 0x92722c85;
  0xa2bfe8a1; 0xa81a664b; 0xc24b8b70; 0xc76c51a3; 0xd192e819; 0xd6990624; 0xf40e3585; 0x106aa070;
  0x19a4c116; 0x1e376c08; 0x2748774c; 0x34b0bcb5; 0x391c0cb3; 0x4ed8aa4a; 0x5b9cca4f; 0x682e6ff3;
  0x748f82ee; 0x78a5636f; 0x84c87814; 0x8cc70208; 0x90befffa; 0xa4506ceb; 0xbef9a3f7; 0xc67178f2].
(** sha256.zok l.5-8 *)
Definition IV_ : list Z := [0x6a09e667; 0xbb67ae85; 0x3c6ef372; 0xa54ff53a; 0x510e527f; 0x9b05688c; 0x1f83d9ab; 0x5be0cd19].

(** shaRound.zok l.14-16 *)
Definition rotr32 : sfun := Here [1%nat] [(0%nat, U32)] [] (uor_ (shr_ (uv 0) (uv 1)) (shl_ (uv 0) (usub_ (ul 32) (uv 1)))).
Definition rotr_ (n : Z) (e : sexp) : sexp := SCall [U32] U32 g_rotr [ul n] [e].
(** shaRound.zok l.18-22 *)
Definition w_ (k : Z) : sexp := sel_ U32 (iv (u32s 64) 0) (usub_ (uv 1) (ul k)).
Definition extend_ : sfun :=
  Here [] [(0%nat, u32s 64); (1%nat, U32)]
    [SDef (src 2) U32 (uxor_ (uxor_ (rotr_ 7 (w_ 15)) (rotr_ 18 (w_ 15))) (shr_ (w_ 15) (ul 3)));
     SDef (src 3) U32 (uxor_ (uxor_ (rotr_ 17 (w_ 2)) (rotr_ 19 (w_ 2))) (shr_ (w_ 2) (ul 10)))]
    (uadd_ (uadd_ (uadd_ (w_ 16) (uv 2)) (w_ 7)) (uv 3)).
(** shaRound.zok l.24-33: e f g h k w are 0 ... 5 *)
Definition temp1 : sfun :=
  Here [] [(0%nat, U32); (1%nat, U32); (2%nat, U32); (3%nat, U32); (4%nat, U32); (5%nat, U32)]
    [SDef (src 6) U32 (uxor_ (uand_ (uv 0) (uv 1)) (uand_ (unot_ (uv 0)) (uv 2)));
     SDef (src 7) U32 (uxor_ (uxor_ (rotr_ 6 (uv 0)) (rotr_ 11 (uv 0))) (rotr_ 25 (uv 0)))]
    (uadd_ (uadd_ (uadd_ (uadd_ (uv 3) (uv 7)) (uv 6)) (uv 4)) (uv 5)).
(** shaRound.zok l.35-44: a b c are 0 1 2 *)
Definition temp2 : sfun :=
  Here [] [(0%nat, U32); (1%nat, U32); (2%nat, U32)]
    [SDef (src 3) U32 (uxor_ (uxor_ (uand_ (uv 0) (uv 1)) (uand_ (uv 0) (uv 2))) (uand_ (uv 1) (uv 2)));
     SDef (src 4) U32 (uxor_ (uxor_ (rotr_ 2 (uv 0)) (rotr_ 13 (uv 0))) (rotr_ 22 (uv 0)))]
    (uadd_ (uv 4) (uv 3)).
(** shaRound.zok l.48-103: input 0, current 1, h0 ... h7 2 ... 9, w 10, i 11, a ... h 12 ... 19, t1 20, t2 21 *)
Definition cur_ (i : nat) : sstmt := SDef (src (2 + i)) U32 (sel_ U32 (iv (u32s 8) 1) (ul (len i))).
Definition shaRound : sfun :=
  Here [] [(0%nat, u32s 16); (1%nat, u32s 8)]
    [cur_ 0; cur_ 1; cur_ 2; cur_ 3; cur_ 4; cur_ 5; cur_ 6; cur_ 7;
     SDef (src 10) (u32s 64) (SOp (OArr U32 64 [true; true]) [iv (u32s 16) 0; SPar (KRep U32 48) (ul 0) [ul 48]]);
     SFor (src 11) (ul 16) (ul 64)
       [SSet (src 10) (u32s 64) [SASel (uv 11)] (SCall [u32s 64; U32] U32 g_extend [] [iv (u32s 64) 10; uv 11])];
     SDef (src 12) U32 (uv 2); SDef (src 13) U32 (uv 3); SDef (src 14) U32 (uv 4); SDef (src 15) U32 (uv 5);
     SDef (src 16) U32 (uv 6); SDef (src 17) U32 (uv 7); SDef (src 18) U32 (uv 8); SDef (src 19) U32 (uv 9);
     SFor (src 11) (ul 0) (ul 64)
       [SDef (src 20) U32 (SCall [U32; U32; U32; U32; U32; U32] U32 g_temp1 [] [uv 16; uv 17; uv 18; uv 19; sel_ U32 (lits K_) (uv 11); sel_ U32 (iv (u32s 64) 10) (uv 11)]);
        SDef (src 21) U32 (SCall [U32; U32; U32] U32 g_temp2 [] [uv 12; uv 13; uv 14]);
        SDef (src 19) U32 (uv 18);
        SDef (src 18) U32 (uv 17);
        SDef (src 17) U32 (uv 16);
        SDef (src 16) U32 (uadd_ (uv 15) (uv 20));
        SDef (src 15) U32 (uv 14);
        SDef (src 14) U32 (uv 13);
        SDef (src 13) U32 (uv 12);
        SDef (src 12) U32 (uadd_ (uv 20) (uv 21))];
     SDef (src 2) U32 (uadd_ (uv 2) (uv 12)); SDef (src 3) U32 (uadd_ (uv 3) (uv 13)); SDef (src 4) U32 (uadd_ (uv 4) (uv 14)); SDef (src 5) U32 (uadd_ (uv 5) (uv 15));
     SDef (src 6) U32 (uadd_ (uv 6) (uv 16)); SDef (src 7) U32 (uadd_ (uv 7) (uv 17)); SDef (src 8) U32 (uadd_ (uv 8) (uv 18)); SDef (src 9) U32 (uadd_ (uv 9) (uv 19))]
    (SOp (OArr U32 8 [false; false; false; false; false; false; false; false]) [uv 2; uv 3; uv 4; uv 5; uv 6; uv 7; uv 8; uv 9]).
(** sha256.zok l.13-21 *)
Definition sha256_ (n : nat) : sfun :=
  Here [1%nat] [(0%nat, blocks n)]
    [SDef (src 2) (u32s 8) (lits IV_);
     SFor (src 3) (ul 0) (uv 1)
       [SDef (src 2) (u32s 8) (SCall [u32s 16; u32s 8] (u32s 8) g_round [] [sel_ (u32s 16) (iv (blocks n) 0) (uv 3); iv (u32s 8) 2])]]
    (iv (u32s 8) 2).
Definition two_ (a b : sexp) : sexp := SOp (OArr U32 16 [true; true]) [a; b].
Definition call_sha (l : list sexp) : sexp := SCall [blocks (length l)] (u32s 8) g_sha256 [ul (len (length l))] [SOp (OArr (u32s 16) (length l) (map (fun _ => false) l)) l].
Definition h8 (x : nat) : sexp := iv (u32s 8) x.
(** 512bit.zok l.7-9 *)
Definition sha512bit : sfun := Here [] [(0%nat, u32s 8); (1%nat, u32s 8)] [] (call_sha [two_ (h8 0) (h8 1)]).
(** 1024bit.zok l.7-10 *)
Definition sha1024bit : sfun :=
  Here [] [(0%nat, u32s 8); (1%nat, u32s 8); (2%nat, u32s 8); (3%nat, u32s 8)]
    [SDef (src 4) (u32s 8) (call_sha [two_ (h8 0) (h8 1); two_ (h8 2) (h8 3)])] (h8 4).
(** 1536bit.zok l.7-10 *)
Definition sha1536bit : sfun :=
  Here [] [(0%nat, u32s 8); (1%nat, u32s 8); (2%nat, u32s 8); (3%nat, u32s 8); (4%nat, u32s 8); (5%nat, u32s 8)]
    [SDef (src 6) (u32s 8) (call_sha [two_ (h8 0) (h8 1); two_ (h8 2) (h8 3); two_ (h8 4) (h8 5)])] (h8 6).
(** 256bitPadded.zok l.5-22 *)
Definition sha256bitPadded : sfun :=
  Here [] [(0%nat, u32s 8)]
    [SDef (src 1) (u32s 8) (lits [0x80000000; 0; 0; 0; 0; 0; 0; 0x00000100])]
    (SCall [u32s 8; u32s 8] (u32s 8) g_512 [] [h8 0; h8 1]).
(** 512bitPadded.zok l.5-33 *)
Definition sha512bitPadded : sfun :=
  Here [] [(0%nat, u32s 8); (1%nat, u32s 8)]
    [SDef (src 2) (u32s 8) (lits [0x80000000; 0; 0; 0; 0; 0; 0; 0]);
     SDef (src 3) (u32s 8) (lits [0; 0; 0; 0; 0; 0; 0; 0x00000200])]
    (SCall [u32s 8; u32s 8; u32s 8; u32s 8] (u32s 8) g_1024 [] [h8 0; h8 1; h8 2; h8 3]).
(** 1024bitPadded.zok l.5-33 *)
Definition sha1024bitPadded : sfun :=
  Here [] [(0%nat, u32s 8); (1%nat, u32s 8); (2%nat, u32s 8); (3%nat, u32s 8)]
    [SDef (src 4) (u32s 8) (lits [0x80000000; 0; 0; 0; 0; 0; 0; 0]);
     SDef (src 5) (u32s 8) (lits [0; 0; 0; 0; 0; 0; 0; 0x00000400])]
    (SCall [u32s 8; u32s 8; u32s 8; u32s 8; u32s 8; u32s 8] (u32s 8) g_1536 [] [h8 0; h8 1; h8 2; h8 3; h8 4; h8 5]).
(** sha256Padded.zok l.7-24: m 0, L 1, M 2, length 3, r 4, k 5, result_in_bits 6, result 7, i 8, j 9, start 10, end 11 *)
Definition zeros (l : nat) : nat := 512 - (l + 65) mod 512 + 32.
Definition pad_ (l m : nat) : sfun :=
  Here [1%nat; 2%nat] [(0%nat, bits_ty l)]
    [SDef (src 3) U32 (uadd_ (uadd_ (uv 1) (ul 64)) (ul 1));
     SAssert (eq_ (uadd_ (udiv_ (uv 3) (ul 512)) (ul 1)) (uv 2)) 0;
     SDef (src 4) U32 (urem_ (uv 3) (ul 512));
     SDef (src 5) U32 (usub_ (ul 512) (uv 4));
     SDef (src 6) (bits_ty (512 * m)) (SOp (OArr CBool (512 * m) [true; false; true; true])
       [iv (bits_ty l) 0; bl true; SPar (KRep CBool (zeros l)) (bl false) [uadd_ (uv 5) (ul 32)]; SCall [U32] (bits_ty 32) g_to_bits [] [uv 1]]);
     SDef (src 7) (blocks m) (SPar (KRep (u32s 16) m) (SPar (KRep U32 16) (ul 0) [ul 16]) [uv 2]);
     SFor (src 8) (ul 0) (uv 2)
       [SFor (src 9) (ul 0) (ul 16)
          [SDef (src 10) U32 (uadd_ (umul_ (uv 8) (ul 512)) (umul_ (uv 9) (ul 32)));
           SDef (src 11) U32 (uadd_ (uv 10) (ul 32));
           SSet (src 7) (blocks m) [SASel (uv 8); SASel (uv 9)] (SCall [bits_ty 32] U32 g_from_bits [] [SPar (KSlice CBool (512 * m) 32) (iv (bits_ty (512 * m)) 6) [uv 10; uv 11]])]]]
    (iv (blocks m) 7).
(** sha256Padded.zok l.28-32: input 0, N 1, block_count 2, padded 3 *)
Definition nblocks (n : nat) : nat := (n + 65) / 512 + 1.
Definition sha256Padded (n : nat) : sfun :=
  Here [1%nat] [(0%nat, bits_ty n)]
    [SDef (src 2) U32 (uadd_ (udiv_ (uadd_ (uadd_ (uv 1) (ul 64)) (ul 1)) (ul 512)) (ul 1));
     SDef (src 3) (blocks (nblocks n)) (SCall [bits_ty n] (blocks (nblocks n)) g_pad [uv 1; uv 2] [iv (bits_ty n) 0])]
    (SCall [blocks (nblocks n)] (u32s 8) g_sha256 [uv 2] [iv (blocks (nblocks n)) 3]).
(** sha256Padded.zok l.36-48: input 0, N 1, L 2, input_bits 3, i 4, bits 5, j 6 *)
Definition sha256Bytes (n : nat) : sfun :=
  Here [1%nat] [(0%nat, u8s n)]
    [SDef (src 2) U32 (umul_ (uv 1) (ul 8));
     SDef (src 3) (bits_ty (8 * n)) (SPar (KRep CBool (8 * n)) (bl false) [uv 2]);
     SFor (src 4) (ul 0) (uv 1)
       [SDef (src 5) (bits_ty 8) (SCall [CUint W8] (bits_ty 8) g_to_bits [] [sel_ (CUint W8) (iv (u8s n) 0) (uv 4)]);
        SFor (src 6) (ul 0) (ul 8)
          [SSet (src 3) (bits_ty (8 * n)) [SASel (uadd_ (umul_ (uv 4) (ul 8)) (uv 6))] (sel_ CBool (iv (bits_ty 8) 5) (uv 6))]]]
    (SCall [bits_ty (8 * n)] (u32s 8) g_padded [uv 2] [iv (bits_ty (8 * n)) 3]).

(** ** The table *)
(** the padded message and its length in bits are u32 *)
Definition msg_ok (l : Z) : bool := (0 <=? l) && (l + 577 <? 2 ^ 32).
Definition sha_sig (f : nat) (gs : list Z) (ts : list cty) (t : cty) : option (list cty * cty * sfun) :=
  match f, gs, ts, t with
  | 0, [g], _, _ => if ((0 <=? g) && (g <=? 32))%Z then Some ([U32], U32, rotr32) else None
  | 1, [], _, _ => Some ([u32s 64; U32], U32, extend_)
  | 2, [], _, _ => Some ([U32; U32; U32; U32; U32; U32], U32, temp1)
  | 3, [], _, _ => Some ([U32; U32; U32], U32, temp2)
  | 4, [], _, _ => Some ([u32s 16; u32s 8], u32s 8, shaRound)
  | 5, [g], _, _ => if size_ok g then Some ([blocks (Z.to_nat g)], u32s 8, sha256_ (Z.to_nat g)) else None
  | 6, [], _, _ => Some ([u32s 8; u32s 8], u32s 8, sha512bit)
  | 7, [], _, _ => Some ([u32s 8; u32s 8; u32s 8; u32s 8], u32s 8, sha1024bit)
  | 8, [], _, _ => Some ([u32s 8; u32s 8; u32s 8; u32s 8; u32s 8; u32s 8], u32s 8, sha1536bit)
  | 9, [], _, _ => Some ([u32s 8], u32s 8, sha256bitPadded)
  | 10, [], _, _ => Some ([u32s 8; u32s 8], u32s 8, sha512bitPadded)
  | 11, [], _, _ => Some ([u32s 8; u32s 8; u32s 8; u32s 8], u32s 8, sha1024bitPadded)
  | 12, [], [CUint w], _ => Some ([CUint w], bits_ty (uwn w), Flat (EToBits (uwn w)) (bits_ty (uwn w)))
  | 13, [], _, CUint w => Some ([bits_ty (uwn w)], CUint w, Flat (EFromBits (uwn w)) (CUint w))
  | 14, [g; h], _, _ => if (msg_ok g && (h =? (g + 65) / 512 + 1))%Z then Some ([bits_ty (Z.to_nat g)], blocks (Z.to_nat h), pad_ (Z.to_nat g) (Z.to_nat h)) else None
  | 15, [g], _, _ => if msg_ok g then Some ([bits_ty (Z.to_nat g)], u32s 8, sha256Padded (Z.to_nat g)) else None
  | 16, [g], _, _ => if msg_ok (8 * g)%Z then Some ([u8s (Z.to_nat g)], u32s 8, sha256Bytes (Z.to_nat g)) else None
  | _, _, _, _ => None
  end%nat.
Definition sha : ftable := fun f gs ts t =>
  match sha_sig f gs ts t with Some (ts', t', d) => if tys_eqb ts ts' && ty_eqb t t' then Some d else None | None => None end.
Lemma sha_inv : forall f gs ts t d, sha f gs ts t = Some d -> sha_sig f gs ts t = Some (ts, t, d).
Proof.
  intros f gs ts t d H. unfold sha in H. destruct (sha_sig f gs ts t) as [[[ts' t'] d']|]; [|discriminate H]. destruct (tys_eqb ts ts' && ty_eqb t t') eqn:E; [|discriminate H]. apply andb_prop in E as [E1 E2]. rewrite (tys_eqb_ok _ _ E1), (ty_eqb_ok _ _ E2). injection H as ->. reflexivity.
Qed.
Lemma sha_intro : forall f gs ts t d, sha_sig f gs ts t = Some (ts, t, d) -> tys_eqb ts ts = true -> ty_eqb t t = true -> sha f gs ts t = Some d.
Proof. intros f gs ts t d H E1 E2. unfold sha. rewrite H, E1, E2. reflexivity. Qed.
End Sha.
