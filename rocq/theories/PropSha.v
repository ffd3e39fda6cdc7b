(** C58, C59: the SHA-256 functions of the standard library compute SHA-256, for every input and every length, and what the circuits compiled from their calls guarantee; a length for which they do not.
    Models: zokrates_stdlib/stdlib/hashes/sha256 (the functions transcribed in Sha.v); specification: FIPS 180-4 (Sha256.v, ShaSpec.v). *)
From Coq Require Import String Ascii.
From Coq Require Import ZArith NArith List Bool Lia Permutation.
From Verif Require Import Bytes Sha256.
From Verif Require Import Typed Writes Src SrcTy TProp TPropOk TPropProg PropTProp Reduce ReduceRen ReduceExp ReduceSimple ReduceBody Lower PropReduce ReduceOnce.
From Verif Require Import PField SMap Concrete IR IRSpec Interp Bits Optimizer OptimizerProofs OptPipeline OptExtra Flat Zir Codegen CgProg CgEnd CgCheck PropIR Primality CgExamples PropCodegen UintOpt Panic DeadCode NoFail PropCompile Source PropSource PropChecked ZProp ZPropStmt PropFold UintCheck PropUint
  Str Abi Typed Flatten FlattenOps FlattenSim FlattenRun FlattenEnd Enforce PropTyped Writes Redefine WritesVal WritesExp WritesChoose WritesRun WritesEnd WritesWf Bounds PropWrites PropWEnd PropSrcEnd.
From Verif Require Import Std StdRun StdSpec StdTy PropStd Sha ShaRun ShaRound ShaHash ShaPad ShaTy ShaSpec.
Import ListNotations.
Open Scope list_scope.
Open Scope Z_scope.

(** ** Specification *)
(** Called with values [gs] of its generic parameters and arguments [vs], function [f] of the SHA-256 library, of type ts -> t, returns [v] and logs nothing; six nested calls are enough. *)
Definition sha_returns {PF : PrimeField} (f : nat) (gs : list Z) (ts : list cty) (t : cty) (vs : list value_) (v : value_) : Prop := forall k, scall sha (6 + k) f gs ts t vs = Ok ([], v).
(** n words of 32 bits *)
Definition is_words (n : nat) (ws : list Z) : Prop := length ws = n /\ words32 ws.
(** The function returns eight words that are, written as bytes, [h]. *)
Definition returns_hash {PF : PrimeField} (f : nat) (gs : list Z) (ts : list cty) (vs : list value_) (h : list Z) : Prop := exists ws, is_words 8 ws /\ sha_returns f gs ts (u32s 8) vs (uarr ws) /\ be_bytes ws = h.
Definition bytes8 (us : list Z) : Prop := Forall (fun u => 0 <= u < 256) us.

Section Values.
Context {PF : PrimeField}.
Lemma hashw_one : forall b, hashw [b] = compressw sha_h0 b.
Proof. intros b. unfold hashw. cbn [fold_left]. exact eq_refl. Qed.
Lemma hashw_fold : forall bs, fold_left compressw bs sha_h0 = hashw bs.
Proof. intros bs. unfold hashw. exact eq_refl. Qed.
(** shaRound is the compression function of SHA-256 on a block of 16 words. *)
Theorem C58_round : forall ws h, is_words 16 ws -> is_words 8 h -> sha_returns g_round [] [u32s 16; u32s 8] (u32s 8) [uarr ws; uarr h] (uarr (compress h (be_bytes ws))).
Proof. intros ws h [Lw Ww] [Lh Wh] k. rewrite compress_be by assumption. exact (round_call (3 + k) ws h Lw Lh Ww Wh). Qed.
(** sha256<N> is the iteration of the compression function from the initial hash value, over any number of blocks. *)
Theorem C58_sha256 : forall bs, N32 (length bs) < 2 ^ 32 -> Forall (is_words 16) bs ->
  sha_returns g_sha256 [N32 (length bs)] [blocks (length bs)] (u32s 8) [VArray (map uarr bs)] (uarr (fold_left compress (map be_bytes bs) sha_h0)).
Proof. intros bs H B k. rewrite fold_blocks by exact B. rewrite hashw_fold. exact (sha256_call (2 + k) bs H B). Qed.
(** 512bit, 1024bit and 1536bit: the same over the blocks made of the arguments, two by two. *)
Theorem C58_512bit : forall a b, is_words 8 a -> is_words 8 b -> sha_returns g_512 [] [u32s 8; u32s 8] (u32s 8) [uarr a; uarr b] (uarr (compress sha_h0 (be_bytes (a ++ b)))).
Proof. intros a b A B k. rewrite compress_be by (apply (halves a b A B)). rewrite <- hashw_one. exact (sha512_call (1 + k) a b A B). Qed.
Theorem C58_1024bit : forall a b c d, is_words 8 a -> is_words 8 b -> is_words 8 c -> is_words 8 d ->
  sha_returns g_1024 [] [u32s 8; u32s 8; u32s 8; u32s 8] (u32s 8) [uarr a; uarr b; uarr c; uarr d] (uarr (fold_left compress [be_bytes (a ++ b); be_bytes (c ++ d)] sha_h0)).
Proof. intros a b c d A B C D k. change [be_bytes (a ++ b); be_bytes (c ++ d)] with (map be_bytes [a ++ b; c ++ d]). rewrite fold_blocks by (repeat constructor; first [apply (halves a b A B)|apply (halves c d C D)]). rewrite hashw_fold. exact (sha1024_call (1 + k) a b c d A B C D). Qed.
Theorem C58_1536bit : forall a b c d e f, is_words 8 a -> is_words 8 b -> is_words 8 c -> is_words 8 d -> is_words 8 e -> is_words 8 f ->
  sha_returns g_1536 [] [u32s 8; u32s 8; u32s 8; u32s 8; u32s 8; u32s 8] (u32s 8) [uarr a; uarr b; uarr c; uarr d; uarr e; uarr f] (uarr (fold_left compress [be_bytes (a ++ b); be_bytes (c ++ d); be_bytes (e ++ f)] sha_h0)).
Proof. intros a b c d e f A B C D E G k. change [be_bytes (a ++ b); be_bytes (c ++ d); be_bytes (e ++ f)] with (map be_bytes [a ++ b; c ++ d; e ++ f]). rewrite fold_blocks by (repeat constructor; first [apply (halves a b A B)|apply (halves c d C D)|apply (halves e f E G)]). rewrite hashw_fold. exact (sha1536_call (1 + k) a b c d e f A B C D E G). Qed.
Lemma halves32 : forall n, is32 n -> half (dum n) /\ half (dum1 n). Proof. exact dum_half. Qed.
(** 256bitPadded, 512bitPadded and 1024bitPadded: SHA-256 of the 32, 64 or 128 bytes of the arguments. *)
Theorem C58_256bit_padded : forall a, is_words 8 a -> returns_hash g_256p [] [u32s 8] [uarr a] (sha256 (be_bytes a)).
Proof.
  intros a A. assert (D : half (dum1 256)) by (apply dum_half; split; [lia|reflexivity]). pose proof (halves a _ A D) as B. exists (hashw [a ++ dum1 256]). split; [apply hashw_ok|]. split; [intros k; exact (p256_call k a A)|]. symmetry. unfold sha256. apply sha_blocks; [repeat constructor; apply B|].
  unfold pad. cbn [concat]. rewrite app_nil_r. rewrite be_bytes_length, (proj1 A). unfold be_bytes at 2. rewrite flat_map_app. f_equal.
Qed.
Theorem C58_512bit_padded : forall a b, is_words 8 a -> is_words 8 b -> returns_hash g_512p [] [u32s 8; u32s 8] [uarr a; uarr b] (sha256 (be_bytes (a ++ b))).
Proof.
  intros a b A B. assert (D : block_ok (dum1 0 ++ dum 512)) by (apply halves; apply dum_half; split; (lia || reflexivity)). exists (hashw [a ++ b; dum1 0 ++ dum 512]). split; [apply hashw_ok|]. split; [intros k; exact (p512_call k a b A B)|]. symmetry. unfold sha256. apply sha_blocks; [constructor; [apply (halves a b A B)|constructor; [exact D|constructor]]|].
  unfold pad. cbn [concat]. rewrite app_nil_r. rewrite be_bytes_length, app_length, (proj1 A), (proj1 B). unfold be_bytes at 2. rewrite flat_map_app. f_equal.
Qed.
Theorem C58_1024bit_padded : forall a b c d, is_words 8 a -> is_words 8 b -> is_words 8 c -> is_words 8 d -> returns_hash g_1024p [] [u32s 8; u32s 8; u32s 8; u32s 8] [uarr a; uarr b; uarr c; uarr d] (sha256 (be_bytes (a ++ b ++ c ++ d))).
Proof.
  intros a b c d A B C E. assert (D : block_ok (dum1 0 ++ dum 1024)) by (apply halves; apply dum_half; split; (lia || reflexivity)). exists (hashw [a ++ b; c ++ d; dum1 0 ++ dum 1024]). split; [apply hashw_ok|]. split; [intros k; exact (p1024_call k a b c d A B C E)|]. symmetry. unfold sha256. apply sha_blocks; [constructor; [apply (halves a b A B)|constructor; [apply (halves c d C E)|constructor; [exact D|constructor]]]|].
  unfold pad. cbn [concat]. rewrite app_nil_r. replace (a ++ b ++ c ++ d) with ((a ++ b) ++ c ++ d) by (rewrite <- app_assoc; reflexivity). rewrite be_bytes_length, !app_length, (proj1 A), (proj1 B), (proj1 C), (proj1 E). rewrite (app_assoc (a ++ b)). unfold be_bytes. rewrite !flat_map_app, <- !app_assoc. do 4 f_equal.
Qed.
(** sha256Padded<N> on bits: SHA-256 of the message of N bits, unless N + 65 is a multiple of 512. *)
Theorem C59_padded_bits_partial : forall m, N32 (length m) + 577 < 2 ^ 32 -> (N32 (length m) + 65) mod 512 <> 0 -> returns_hash g_padded [N32 (length m)] [bits_ty (length m)] [barr m] (sha256_bits m).
Proof.
  intros m H N. assert (P : code_pad m = pad_bits m). { apply pad_same; [unfold N32, len in *; lia|]. intros E. apply N. unfold N32. replace (Z.of_nat (length m) + 65) with (Z.of_nat (length m + 65)) by lia. change 512 with (Z.of_nat 512). rewrite <- Nat2Z.inj_mod, E. reflexivity. }
  exists (hashw (rows (code_pad m) (nblocks (length m)))). split; [apply hashw_ok|]. split; [intros k; exact (padded_call (1 + k) m H)|]. rewrite <- (hash_bits m (nblocks (length m))); rewrite <- P; [reflexivity|apply code_pad_length].
Qed.
(** hashes/sha256/sha256Padded: SHA-256 of any number of bytes. *)
Theorem C58_padded_bytes : forall us, bytes8 us -> 8 * N32 (length us) + 577 < 2 ^ 32 -> returns_hash g_bytes [N32 (length us)] [CArray (CUint W8) (length us)] [VArray (map (VUint W8) us)] (sha256 us).
Proof.
  intros us H L. set (m := bits_of_bytes us). assert (Lm : length m = (8 * length us)%nat) by apply bits_of_bytes_length. assert (P : code_pad m = pad_bits m). { apply pad_same; [unfold N32, len in *; lia|]. rewrite Lm. intros E. apply Nat.mod_divides in E as [c E]; lia. }
  exists (hashw (rows (code_pad m) (nblocks (8 * length us)))). split; [apply hashw_ok|]. split; [intros k; exact (bytes_call k us L)|]. rewrite <- (sha_bits_bytes us H). fold m. rewrite <- (hash_bits m (nblocks (8 * length us))); rewrite <- P; [reflexivity|]. rewrite <- Lm. apply code_pad_length.
Qed.
End Values.
Print Assumptions C58_round.
Print Assumptions C58_sha256.
Print Assumptions C58_512bit.
Print Assumptions C58_1024bit.
Print Assumptions C58_1536bit.
Print Assumptions C58_256bit_padded.
Print Assumptions C58_512bit_padded.
Print Assumptions C58_1024bit_padded.
Print Assumptions C59_padded_bits_partial.
Print Assumptions C58_padded_bytes.
(** For a message of 447 bits sha256Padded pads with 512 zeros too many: the length does not fit the block only when fewer than 65 bits are left, and here 65 are. *)
Theorem C59_padded_447_refuted : exists m : list bool, length m = 447%nat /\ exists ws, is_words 8 ws /\ @sha_returns bn254 g_padded [447] [bits_ty 447] (u32s 8) [barr m] (uarr ws) /\ be_bytes ws <> sha256_bits m.
Proof.
  exists (repeat false 447). split; [reflexivity|]. exists (hashw (rows (code_pad (repeat false 447)) 2)). split; [apply hashw_ok|]. split; [intros k; exact (@padded_call bn254 (1 + k) (repeat false 447) eq_refl)|]. intros E. vm_compute in E. discriminate E.
Qed.
Print Assumptions C59_padded_447_refuted.
(** the test vectors of FIPS 180-4 on bits *)
Example C58_spec_abc : sha256_bits (bits_of_bytes [97; 98; 99]) = sha256 [97; 98; 99] /\ firstn 4 (sha256 [97; 98; 99]) = [0xba; 0x78; 0x16; 0xbf].
Proof. split; vm_compute; reflexivity. Qed.

(** ** Circuits *)
(** Whatever satisfies the constraints compiled from a call of a function of the library: the arguments are values of the types of the parameters, and the outputs are what the function returns on them. *)
Theorem C58_sound : forall (PF : PrimeField) f gs ts t n q q' w z p1 p2 c (a : env), (131 <= required_bits)%nat -> Forall good_ty ts -> Forall (fun g => 0 <= g < 2 ^ 32) gs ->
  built sha n (call_main f gs ts t) q q' w z p1 p2 c -> middle_ok w -> max_ok_prog p2 -> unpacks_checked p2 -> cache_safe p2 -> satisfies a c ->
  exists vs, Forall2 has_type vs ts /\ map (fun x => a (pid x)) (pargs c) = encode_values vs /\
    (forall v, sha_returns f gs ts t vs v -> map (fun i => a (vpub i)) (seq 0 (prim_count t)) = encode v).
Proof.
  intros PF f gs ts t n q q' w z p1 p2 c a Hr Ht Hg B M Hm Hu Hc Hs. destruct (C52_sound PF sha n _ q q' w z p1 p2 c a Hr (main_ok_of sha f gs ts t sha_ok sha_srcok Ht Hg) B M Hm Hu Hc Hs) as (vs & V1 & V2 & V3 & V4). rewrite main_args in V1.
  assert (L : length vs = length ts) by (clear - V1; induction V1; cbn; congruence). exists vs. split; [exact V1|]. split; [exact V2|].
  intros v H. apply (V4 6%nat v []). rewrite main_run by exact L. pose proof (H 0%nat) as E; change (6 + 0)%nat with 6%nat in E; rewrite E. reflexivity.
Qed.
Print Assumptions C58_sound.
(** If the function returns a value, witness computation succeeds and finds it. *)
Theorem C58_complete : forall (PF : PrimeField) ext f gs ts t n q q' w z p1 p2 c vs v, (131 <= required_bits)%nat -> Forall good_ty ts -> Forall (fun g => 0 <= g < 2 ^ 32) gs ->
  built sha n (call_main f gs ts t) q q' w z p1 p2 c -> middle_ok w -> max_ok_prog p2 -> cache_clean p2 -> Forall2 has_type vs ts -> sha_returns f gs ts t vs v ->
  exists a logs, exec_prog (exec_solver ext) (pargs c) (flat_stmts (pstmts c)) (encode_values vs) = Done a logs /\ map (fun i => sget (vpub i) a) (seq 0 (prim_count t)) = map Some (encode v).
Proof.
  intros PF ext f gs ts t n q q' w z p1 p2 c vs v Hr Ht Hg B M Hm Hc Hv H. assert (L : length vs = length ts) by (clear - Hv; induction Hv; cbn; congruence).
  destruct (C52_complete PF ext sha n _ q q' w z p1 p2 c 6%nat vs v [] Hr (main_ok_of sha f gs ts t sha_ok sha_srcok Ht Hg) B M Hm Hc) as (a & logs & lz & lgr & A & _ & _ & _ & _ & O & _).
  - rewrite main_args. exact Hv.
  - rewrite main_run by exact L. pose proof (H 0%nat) as E; change (6 + 0)%nat with 6%nat in E; rewrite E. reflexivity.
  - exists a, logs. split; [exact A|exact O].
Qed.
Print Assumptions C58_complete.
(** In particular: whatever satisfies the constraints compiled from sha256Padded<N> on bytes, its arguments are N bytes and its outputs the eight words of their SHA-256. *)
Theorem C58_preimage : forall (PF : PrimeField) len_ n q q' w z p1 p2 c (a : env), (131 <= required_bits)%nat -> 8 * N32 len_ + 577 < 2 ^ 32 ->
  built sha n (call_main g_bytes [N32 len_] [CArray (CUint W8) len_] (u32s 8)) q q' w z p1 p2 c -> middle_ok w -> max_ok_prog p2 -> unpacks_checked p2 -> cache_safe p2 -> satisfies a c ->
  exists us ws, length us = len_ /\ bytes8 us /\ map (fun x => a (pid x)) (pargs c) = map of_Z us /\
    is_words 8 ws /\ map (fun i => a (vpub i)) (seq 0 8) = map of_Z ws /\ be_bytes ws = sha256 us.
Proof.
  intros PF len_ n q q' w z p1 p2 c a Hr L B M Hm Hu Hc Hs.
  destruct (C58_sound PF g_bytes [N32 len_] [CArray (CUint W8) len_] (u32s 8) n q q' w z p1 p2 c a Hr ltac:(repeat constructor) ltac:(repeat constructor; unfold N32 in *; lia) B M Hm Hu Hc Hs) as (vs & V1 & V2 & V3).
  inversion V1 as [|v ? vs' ? T T']; subst. inversion T'; subst. destruct v as [| | |l| |]; try contradiction T. apply type_array in T as [Ll Tl].
  assert (G : exists us, l = map (VUint W8) us /\ bytes8 us).
  { clear - Tl. induction Tl as [|v l Tv Tl [us [-> Bu]]]; [exists []; split; [reflexivity|constructor]|]. destruct v as [|ww n0| | | |]; try contradiction Tv. destruct Tv as [-> R]. exists (n0 :: us). split; [reflexivity|constructor; [exact R|exact Bu]]. }
  destruct G as [us [-> Bu]]. rewrite map_length in Ll. assert (E : forall wd l, flat_map encode (map (VUint wd) l) = map of_Z l) by (intros wd l; induction l as [|x l IH]; [reflexivity|]; cbn [map flat_map encode app]; rewrite IH; reflexivity).
  rewrite <- Ll in *. destruct (C58_padded_bytes us Bu L) as (ws & Hw & Rw & Ew). exists us, ws. split; [reflexivity|]. split; [exact Bu|]. split.
  - rewrite V2. unfold encode_values. cbn [flat_map encode]. rewrite E, app_nil_r. reflexivity.
  - split; [exact Hw|]. split; [|exact Ew]. pose proof (V3 _ Rw) as O. unfold uarr in O. cbn [encode] in O. rewrite E in O. exact O.
Qed.
Print Assumptions C58_preimage.
(** ** Calls that compile, over bn254 *)
Definition main_rotr := @call_main bn254 g_rotr [7] [U32] U32.
Definition main_temp1 := @call_main bn254 g_temp1 [] [U32; U32; U32; U32; U32; U32] U32.
Definition main_temp2 := @call_main bn254 g_temp2 [] [U32; U32; U32] U32.
Definition sha_compiles (p : @sprog bn254) : Prop := exists q q' w z p1 p2 c, built sha 20 p q q' w z p1 p2 c /\ middle_ok w /\ max_ok_prog p2 /\ cache_clean p2 /\ unpacks_checked p2 /\ cache_safe p2.
Lemma sha_compiles_if : forall p, fulls sha 20 p = true -> uncasts sha 20 p -> sha_compiles p.
Proof. intros p H U. destruct (fulls_ok sha 20 p H U) as (q & q' & w & z & p1 & p2 & c & A & B & _ & C & D & E & G & _). exists q, q', w, z, p1, p2, c. repeat (split; [assumption|]). assumption. Qed.
Ltac compile_sha := apply sha_compiles_if; [vm_compute; reflexivity|vm_compute; repeat (first [exact Logic.I|intro; discriminate|split])].
Lemma rotr_compiles : sha_compiles main_rotr.
Proof. compile_sha. Qed.
Lemma temp2_compiles : sha_compiles main_temp2.
Proof. compile_sha. Qed.
Lemma temp1_compiles : sha_compiles main_temp1.
Proof. compile_sha. Qed.
(** the hypotheses of the theorems above are met *)
Example C58_nonvacuous : (131 <= @required_bits bn254)%nat /\ sha_compiles main_rotr /\ sha_compiles main_temp1 /\ sha_compiles main_temp2 /\
  is_words 16 (repeat 7 16) /\ is_words 8 sha_h0 /\ @returns_hash bn254 g_bytes [3] [CArray (CUint W8) 3] [VArray (map (VUint W8) [97; 98; 99])] (sha256 [97; 98; 99]) /\
  @returns_hash bn254 g_padded [5] [bits_ty 5] [barr [true; false; true; true; false]] (sha256_bits [true; false; true; true; false]) /\
  sha_returns g_temp2 [] [U32; U32; U32] U32 (map (@VUint bn254 W32) [1; 2; 3]) (VUint W32 (t2 1 2 3)).
Proof.
  split; [apply Nat.leb_le; vm_compute; reflexivity|]. split; [exact rotr_compiles|]. split; [exact temp1_compiles|]. split; [exact temp2_compiles|].
  split; [split; [reflexivity|repeat constructor; lia]|]. split; [split; [reflexivity|exact h0_32]|]. split; [|split].
  - apply (@C58_padded_bytes bn254 [97; 98; 99]); [repeat constructor; lia|unfold N32; cbn [length]; lia].
  - apply (@C59_padded_bits_partial bn254 [true; false; true; true; false]); [unfold N32; cbn [length]; lia|]. intros E. vm_compute in E. discriminate E.
  - intros k. apply (@temp2_call bn254 (4 + k)). split; [lia|reflexivity].
Qed.
