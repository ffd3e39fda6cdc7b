(** Padding and the hash of a message of any length. *)
From Coq Require Import String Ascii.
From Coq Require Import ZArith NArith List Bool Lia.
From Verif Require Import Bytes Sha256.
From Verif Require Import PField Concrete Interp Bits Flat Zir Codegen Str Abi Typed Writes Src SrcTy Std StdRun StdSpec Sha ShaRun ShaRound ShaHash.
Import ListNotations.
Open Scope list_scope.
Open Scope Z_scope.

Definition code_pad (m : list bool) : list bool := m ++ [true] ++ repeat false (zeros (length m)) ++ bits_be 32 (len (length m)).
Definition row (bits : list bool) (i : nat) : list Z := map (fun j => StdSpec.word bits (16 * i + j)) (seq 0 16).
Definition rows (bits : list bool) (n : nat) : list (list Z) := map (row bits) (seq 0 n).
Lemma zeros_eq : forall l, (l + 1 + zeros l + 32 = 512 * nblocks l)%nat.
Proof. intros l. unfold zeros, nblocks. pose proof (Nat.div_mod (l + 65) 512 ltac:(lia)). pose proof (Nat.mod_upper_bound (l + 65) 512 ltac:(lia)). lia. Qed.
Lemma code_pad_length : forall m, length (code_pad m) = (512 * nblocks (length m))%nat.
Proof. intros m. unfold code_pad. rewrite !app_length, repeat_length, bits_be_length. cbn [length]. rewrite <- zeros_eq. lia. Qed.
Lemma row_ok : forall bits i, (512 * (i + 1) <= length bits)%nat -> block_ok (row bits i).
Proof.
  intros bits i H. split; [unfold row; rewrite map_length, seq_length; reflexivity|]. apply Forall_forall. intros x J. apply in_map_iff in J as [j [<- J]]. apply in_seq in J. unfold StdSpec.word, is32.
  pose proof (bv_range (firstn 32 (skipn (32 * (16 * i + j)) bits))) as R. rewrite firstn_length, skipn_length in R. rewrite Nat.min_l in R by lia. exact R.
Qed.
Lemma rows_ok : forall bits n, (512 * n <= length bits)%nat -> Forall block_ok (rows bits n).
Proof. intros bits n H. apply Forall_forall. intros x J. apply in_map_iff in J as [i [<- J]]. apply in_seq in J. apply row_ok. lia. Qed.

Lemma map_repeat_ : forall {A B} (f : A -> B) x n, map f (repeat x n) = repeat (f x) n.
Proof. intros A B f x n. induction n as [|n IH]; [reflexivity|]. cbn [repeat map]. rewrite IH. reflexivity. Qed.
Section Pad.
Context {PF : PrimeField}.
Lemma ev_to : forall call rho e v w, ev call rho e v -> v = w -> ev call rho e w.
Proof. intros call rho e v w H <-. exact H. Qed.
Lemma ex_set2 : forall call rho x t i j e v a b w1 w2 l u, ev call rho e v -> ev call rho i (VUint w1 a) -> ev call rho j (VUint w2 b) -> rho x = Some (VArray l) -> put [PIdx a; PIdx b] v (VArray l) = Some u -> ex call rho (SSet x t [SASel i; SASel j] e) (rupd rho x u).
Proof. intros call rho x t i j e v a b w1 w2 l u H1 H2 H3 H4 H5. unfold ev, ex in *. cbn [sexec ssteps]. rewrite H1. cbn [obnd]. rewrite H2. cbn [obnd fst snd]. rewrite H3. cbn [obnd fst snd app]. rewrite H4. cbn [of_opt obnd fst snd app]. rewrite H5. reflexivity. Qed.
Lemma put_at2 : forall (A B : list value_) (c d : list value_) x y a b, 0 <= a -> 0 <= b -> Z.to_nat a = length A -> Z.to_nat b = length c ->
  put [PIdx a; PIdx b] y (VArray (A ++ VArray (c ++ x :: d) :: B)) = Some (VArray (A ++ VArray (c ++ y :: d) :: B)).
Proof.
  intros A B c d x y a b Ha Hb E1 E2. cbn [put]. destruct (Z.leb_spec 0 a) as [_|Q]; [|lia]. rewrite E1. clear E1. pose proof (put_at c d x y b Hb E2) as P. cbn [put] in P.
  enough (E : put_nth (length A) (fun v => match v with VArray l => if 0 <=? b then option_map VArray (put_nth (Z.to_nat b) (fun _ => Some y) l) else None | _ => None end) (A ++ VArray (c ++ x :: d) :: B) = Some (A ++ VArray (c ++ y :: d) :: B)) by (rewrite E; reflexivity).
  induction A as [|z A IH]; cbn [length app put_nth]; [rewrite P; reflexivity|rewrite IH; reflexivity].
Qed.
Lemma from_bits32 : forall k bs, scall sha (S k) g_from_bits [] [bits_ty 32] U32 [vbits bs] = Ok ([], VUint W32 (bv bs)).
Proof. intros k bs. eapply call_flat; [apply sha_intro; [reflexivity|reflexivity|reflexivity]|]. cbn [sem_emb uwn]. unfold vbits. rewrite bools_vbits. reflexivity. Qed.
Lemma to_bits_sha : forall k w x, scall sha (S k) g_to_bits [] [CUint w] (bits_ty (uwn w)) [VUint w x] = Ok ([], vbits (bits_be (uwn w) x)).
Proof. intros k w x. eapply call_flat; [apply sha_intro; [reflexivity|destruct w; reflexivity|destruct w; reflexivity]|]. cbn [sem_emb]. rewrite Nat.eqb_refl. reflexivity. Qed.
Lemma msg_of : forall n, len n + 577 < 2 ^ 32 -> msg_ok (len n) = true.
Proof. intros n H. unfold msg_ok. apply andb_true_intro. split; [apply Z.leb_le; unfold len; lia|apply Z.ltb_lt; exact H]. Qed.
Lemma nblocks_z : forall n, (len n + 65) / 512 + 1 = len (nblocks n).
Proof. intros n. unfold len, nblocks. rewrite Nat2Z.inj_add, Nat2Z.inj_div, Nat2Z.inj_add. reflexivity. Qed.
Lemma blocks_le : forall n, len n + 577 < 2 ^ 32 -> 512 * len (nblocks n) < 2 ^ 32.
Proof. intros n H. pose proof (zeros_eq n) as Z0. unfold zeros in Z0. pose proof (Nat.mod_upper_bound (n + 65) 512 ltac:(lia)). unfold len in *. lia. Qed.
Lemma d_pad : forall n, len n + 577 < 2 ^ 32 -> sha g_pad [len n; len (nblocks n)] [bits_ty n] (blocks (nblocks n)) = Some (pad_ n (nblocks n)).
Proof.
  intros n H. apply sha_intro; [cbn [sha_sig g_pad]; rewrite (msg_of n H), nblocks_z, Z.eqb_refl, !to_len; reflexivity|cbn [tys_eqb ty_eqb bits_ty andb]; rewrite Nat.eqb_refl; reflexivity|cbn [ty_eqb blocks u32s U32 uwn Nat.eqb andb]; apply Nat.eqb_refl].
Qed.
(** the array of words after [i] rows and [j] words of the next *)
Definition filled (bits : list bool) (n i j : nat) : list value_ :=
  map uarr_ (rows bits i) ++ (if Nat.ltb i n then VArray (map (VUint W32) (firstn j (row bits i)) ++ repeat (VUint W32 0) (16 - j)) :: repeat (VArray (repeat (VUint W32 0) 16)) (n - i - 1) else []).
Lemma filled_next : forall bits n i, (i < n)%nat -> filled bits n i 16 = filled bits n (S i) 0.
Proof.
  intros bits n i H. unfold filled. rewrite (proj2 (Nat.ltb_lt i n) H). unfold rows. rewrite seq_S, !map_app, <- app_assoc. cbn [map app Nat.add]. rewrite (firstn_all2 (row bits i)) by (unfold row; rewrite map_length, seq_length; lia). change (16 - 16)%nat with 0%nat. cbn [repeat]. rewrite app_nil_r. f_equal. unfold uarr_ at 1. f_equal.
  destruct (Nat.ltb_spec (S i) n) as [L|L].
  - replace (n - i - 1)%nat with (S (n - S i - 1)) by lia. cbn [repeat firstn map app Nat.sub]. reflexivity.
  - replace (n - i - 1)%nat with 0%nat by lia. reflexivity.
Qed.
Lemma word_at : forall n bits i j, length bits = n -> (32 * (16 * i + j) + 32 <= n)%nat -> Z.of_nat n < 2 ^ 32 -> forall call rho, rho (src 6) = Some (vbits bits) -> rho (src 10) = Some (VUint W32 (512 * len i + 32 * len j)) -> rho (src 11) = Some (VUint W32 (512 * len i + 32 * len j + 32)) ->
  ev call rho (SPar (KSlice CBool n 32) (SId (bits_ty n) (src 6)) [SId U32 (src 10); SId U32 (src 11)]) (vbits (firstn 32 (skipn (32 * (16 * i + j)) bits))).
Proof.
  intros n bits i j Ln H Hn call rho E6 E10 E11. eapply ev_par; [eapply ev_id; exact E6|apply evs_cons; [eapply ev_id; exact E10|apply evs_cons; [eapply ev_id; exact E11|apply evs_nil]]|reflexivity| |].
  - cbn [par_op]. unfold len. set (o := (32 * (16 * i + j))%nat) in *. replace (512 * Z.of_nat i + 32 * Z.of_nat j) with (Z.of_nat o) by (unfold o; lia). 
    replace ((0 <=? Z.of_nat o) && (Z.of_nat o <=? Z.of_nat o + 32) && (Z.of_nat o + 32 <=? Z.of_nat n) && (Z.of_nat o + 32 - Z.of_nat o =? Z.of_nat 32)) with true; [reflexivity|]. symmetry. repeat (apply andb_true_intro; split); try (apply Z.leb_le; lia). apply Z.eqb_eq. lia.
  - unfold vbits. cbn [sem_op]. rewrite map_length, Ln. unfold len. set (o := (32 * (16 * i + j))%nat) in *. rewrite Nat2Z.id. replace (Z.to_nat (Z.of_nat o + 32)) with (o + 32)%nat by lia. rewrite (proj2 (Nat.leb_le o _)), (proj2 (Nat.leb_le _ n)) by lia. cbn [andb]. replace (o + 32 - o)%nat with 32%nat by lia. rewrite skipn_map, firstn_map. reflexivity.
Qed.
Lemma pad_call : forall k m, len (length m) + 577 < 2 ^ 32 ->
  scall sha (S (S k)) g_pad [len (length m); len (nblocks (length m))] [bits_ty (length m)] (blocks (nblocks (length m))) [vbits m] = Ok ([], barr_ (rows (code_pad m) (nblocks (length m)))).
Proof.
  intros k m H. set (l := length m) in *. set (n := nblocks l) in *. set (B := code_pad m). assert (LB : length B = (512 * n)%nat) by apply code_pad_length. pose proof (blocks_le l H) as Hn. fold n in Hn. pose proof (zeros_eq l) as Hz. fold n in Hz.
  assert (Hm : (len l + 65) mod 512 = Z.of_nat ((l + 65) mod 512)) by (unfold len; rewrite Nat2Z.inj_mod, Nat2Z.inj_add; reflexivity). pose proof (Nat.mod_upper_bound (l + 65) 512 ltac:(lia)) as Hu.
  eapply call_here'; [exact (d_pad l H)|reflexivity|reflexivity|]. fold n. cbn [map fst rbind].
  eapply step. { eapply ex_def. unfold uadd_, uv, iv, ul. eapply ev_to; [run2|]. cbn [sem_op sem_uop of_opt option_map uwn]. rewrite (StdSpec.wrap32 (len l + 64)) by (unfold len in *; lia). rewrite StdSpec.wrap32 by (unfold len in *; lia). replace (len l + 64 + 1) with (len l + 65) by ring. reflexivity. }
  eapply step. { eapply ex_assert. unfold eq_, uadd_, udiv_, uv, iv, ul. eapply ev_to; [run2|]. cbn [sem_op sem_uop of_opt option_map uwn Z.eqb]. rewrite (StdSpec.wrap32 ((len l + 65) / 512 + 1)) by (rewrite nblocks_z; fold n; unfold len in *; lia). rewrite nblocks_z. fold n. cbn [value_eqb]. rewrite Z.eqb_refl. reflexivity. }
  eapply step. { eapply ex_def. unfold urem_, uv, iv, ul. run2. }
  eapply step. { eapply ex_def. unfold usub_, uv, iv, ul. eapply ev_to; [run2|]. cbn [sem_op sem_uop of_opt option_map uwn]. rewrite Hm, StdSpec.wrap32 by lia. reflexivity. }
  eapply step. { eapply ex_def. eapply ev_op with (vs := [vbits m; VBool true; vbits (repeat false (zeros l)); vbits (bits_be 32 (len l))]).
    - apply evs_cons; [unfold iv; run2|]. apply evs_cons; [unfold bl; run2|]. apply evs_cons.
      + unfold bl, uadd_, uv, iv, ul. eapply ev_par; [run2|apply evs_cons; [eapply ev_to; [run2|]; cbn [sem_op sem_uop of_opt option_map uwn]; rewrite StdSpec.wrap32 by lia; reflexivity|apply evs_nil]|reflexivity| |].
        * cbn [par_op]. rewrite (proj2 (Z.eqb_eq _ _)); [reflexivity|]. unfold zeros. lia.
        * cbn [sem_op]. unfold vbits. rewrite map_repeat_. reflexivity.
      + apply evs_cons; [|apply evs_nil]. eapply ev_call; [apply evs_nil|apply evs_cons; [unfold uv, iv; run2|apply evs_nil]|reflexivity|exact (to_bits_sha k W32 (len l))].
    - unfold vbits. cbn [sem_op spread option_map of_opt]. rewrite app_nil_r. reflexivity. }
  eapply step. { eapply ex_def. unfold uv, iv, ul. eapply ev_par; [eapply ev_par; [run2|run2|reflexivity|reflexivity|reflexivity]|run2|reflexivity| |]; [cbn [par_op]; unfold len; rewrite Z.eqb_refl; reflexivity|reflexivity]. }
  match goal with |- context [rupd (rupd ?rr (src 6) ?vv) (src 7) ?ww] => set (rho := rupd (rupd rr (src 6) vv) (src 7) ww) end.
  assert (R6 : rho (src 6) = Some (vbits B)). { unfold rho. rewrite rupd_src by discriminate. rewrite rupd_same. unfold vbits, B, code_pad. fold l. rewrite !map_app. reflexivity. }
  assert (R7 : rho (src 7) = Some (VArray (filled B n 0 0))).
  { unfold rho. rewrite rupd_same. unfold filled. cbn [rows map seq app]. assert (N0 : (0 < n)%nat) by (unfold n, nblocks; lia). rewrite (proj2 (Nat.ltb_lt 0 n) N0). cbn [firstn map app Nat.sub]. rewrite Nat.sub_0_r. replace n with (S (n - 1)) at 1 by lia. reflexivity. }
  assert (R2 : rho (src 2) = Some (VUint W32 (len n))) by (unfold rho; look). generalize dependent rho. intros rho R6 R7 R2.
  eapply step_for with (P := fun r => r (src 7) = Some (barr_ (rows B n))).
  2: { intros r P. apply step_end. unfold iv. eapply ev_id. exact P. }
  destruct (ex_for (scall sha (S k)) (fun i r => r (src 6) = Some (vbits B) /\ r (src 7) = Some (VArray (filled B n (Z.to_nat i) 0))) rho (src 8) (ul 0) (uv 2)
       [SFor (src 9) (ul 0) (ul 16)
          [SDef (src 10) U32 (uadd_ (umul_ (uv 8) (ul 512)) (umul_ (uv 9) (ul 32)));
           SDef (src 11) U32 (uadd_ (uv 10) (ul 32));
           SSet (src 7) (blocks n) [SASel (uv 8); SASel (uv 9)] (SCall [bits_ty 32] U32 g_from_bits [] [SPar (KSlice CBool (512 * n) 32) (iv (bits_ty (512 * n)) 6) [uv 10; uv 11]])]] 0 (len n) W32 W32) as [r [E [_ P]]].
  - unfold ul. run2.
  - unfold uv, iv. run2.
  - unfold len. lia.
  - split; [exact R6|exact R7].
  - intros i r Hi [P6 P7]. set (a := Z.to_nat i) in *. assert (Ha : (a < n)%nat) by (unfold a, len in *; lia). assert (Ei : i = len a) by (unfold a, len; lia).
    destruct (ex_for (scall sha (S k)) (fun j r => r (src 6) = Some (vbits B) /\ r (src 8) = Some (VUint W32 i) /\ r (src 7) = Some (VArray (filled B n a (Z.to_nat j)))) (rupd r (src 8) (VUint W32 i)) (src 9) (ul 0) (ul 16)
          [SDef (src 10) U32 (uadd_ (umul_ (uv 8) (ul 512)) (umul_ (uv 9) (ul 32)));
           SDef (src 11) U32 (uadd_ (uv 10) (ul 32));
           SSet (src 7) (blocks n) [SASel (uv 8); SASel (uv 9)] (SCall [bits_ty 32] U32 g_from_bits [] [SPar (KSlice CBool (512 * n) 32) (iv (bits_ty (512 * n)) 6) [uv 10; uv 11]])] 0 16 W32 W32) as [r2 [E2 [Q6 [_ Q7]]]].
    + unfold ul. run2.
    + unfold ul. run2.
    + lia.
    + split; [look|]. split; [look|]. look.
    + intros j r2 Hj [Q6 [Q8 Q7]]. set (b := Z.to_nat j) in *. assert (Hb : (b < 16)%nat) by (unfold b; lia). assert (Ej : j = len b) by (unfold b, len; lia). replace (Z.to_nat (j + 1)) with (S b) by (unfold b; lia).
      assert (Eb : nth_error (row B a) b = Some (StdSpec.word B (16 * a + b))). { unfold row. rewrite nth_error_map. rewrite (nth_error_nth' _ 0%nat) by (rewrite seq_length; exact Hb). rewrite seq_nth by exact Hb. reflexivity. }
      eexists. split.
      * eapply exs_cons. { eapply ex_def. unfold uadd_, umul_, uv, iv, ul. eapply ev_to; [run2|]. cbn [sem_op sem_uop of_opt option_map uwn]. rewrite (StdSpec.wrap32 (i * 512)), (StdSpec.wrap32 (j * 32)) by (unfold len in *; lia). rewrite StdSpec.wrap32 by (unfold len in *; lia). replace (i * 512 + j * 32) with (512 * len a + 32 * len b) by (rewrite <- Ei, <- Ej; ring). reflexivity. }
        eapply exs_cons. { eapply ex_def. unfold uadd_, uv, iv, ul. eapply ev_to; [run2|]. cbn [sem_op sem_uop of_opt option_map uwn]. rewrite StdSpec.wrap32 by (unfold len in *; lia). reflexivity. }
        eapply exs_cons; [|apply exs_nil]. eapply ex_set2 with (v := VUint W32 (StdSpec.word B (16 * a + b))) (a := i) (b := j) (w1 := W32) (w2 := W32) (l := filled B n a b) (u := VArray (filled B n a (S b))).
        -- eapply ev_call; [apply evs_nil|apply evs_cons; [|apply evs_nil]|reflexivity|exact (from_bits32 k (firstn 32 (skipn (32 * (16 * a + b)) B)))]. unfold uv, iv. apply word_at; [exact LB|lia|rewrite Nat2Z.inj_mul; exact Hn|look|look|look].
        -- unfold uv, iv. run2.
        -- unfold uv, iv. run2.
        -- look.
        -- unfold filled. rewrite (proj2 (Nat.ltb_lt a n) Ha). replace (16 - b)%nat with (S (16 - S b)) by lia. cbn [repeat]. rewrite (firstn_S _ _ _ _ Eb), map_app, <- app_assoc. cbn [map app]. apply put_at2; [lia|lia| |].
           ++ unfold rows. rewrite !map_length, seq_length. reflexivity.
           ++ rewrite map_length, firstn_length. unfold row. rewrite map_length, seq_length. fold b. lia.
      * split; [look|]. split; [look|]. rewrite rupd_same. reflexivity.
    + exists r2. split; [eapply exs_cons; [exact E2|apply exs_nil]|]. split; [exact Q6|]. rewrite Q7. change (Z.to_nat 16) with 16%nat. rewrite filled_next by exact Ha. replace (Z.to_nat (i + 1)) with (S a) by (unfold a; lia). reflexivity.
  - exists r. split; [exact E|]. rewrite P, to_len. unfold filled. rewrite Nat.ltb_irrefl, app_nil_r. reflexivity.
Qed.
(** sha256Padded on bits *)
Lemma padded_call : forall k m, len (length m) + 577 < 2 ^ 32 ->
  scall sha (S (S (S (S (S k))))) g_padded [len (length m)] [bits_ty (length m)] (u32s 8) [vbits m] = Ok ([], uarr_ (hashw (rows (code_pad m) (nblocks (length m))))).
Proof.
  intros k m H. set (l := length m) in *. pose proof (blocks_le l H) as Hn.
  assert (D : sha g_padded [len l] [bits_ty l] (u32s 8) = Some (sha256Padded l)).
  { apply sha_intro; [cbn [sha_sig g_padded]; rewrite (msg_of l H), !to_len; reflexivity|cbn [tys_eqb ty_eqb bits_ty andb]; rewrite Nat.eqb_refl; reflexivity|reflexivity]. }
  eapply call_here; [exact D|reflexivity|reflexivity| |].
  - cbn [map fst rbind]. eapply exs_cons.
    { eapply ex_def. unfold uadd_, udiv_, uv, iv, ul. eapply ev_to; [run2|]. cbn [sem_op sem_uop of_opt option_map uwn Z.eqb]. rewrite (StdSpec.wrap32 (len l + 64)) by (unfold len in *; lia). rewrite (StdSpec.wrap32 (len l + 64 + 1)) by (unfold len in *; lia). replace (len l + 64 + 1) with (len l + 65) by ring. rewrite nblocks_z, StdSpec.wrap32 by (unfold len in *; lia). reflexivity. }
    eapply exs_cons; [|apply exs_nil]. eapply ex_def. eapply ev_call; [unfold uv, iv; run2|unfold iv; run2|reflexivity|exact (pad_call (S (S k)) m H)].
  - pose proof (sha256_call k (rows (code_pad m) (nblocks l))) as S0. replace (length (rows (code_pad m) (nblocks l))) with (nblocks l) in S0 by (unfold rows; rewrite map_length, seq_length; reflexivity).
    eapply ev_call; [unfold uv, iv; run2|unfold iv; run2|reflexivity|]. apply S0; [unfold len in *; lia|]. apply rows_ok. rewrite code_pad_length. apply Nat.le_refl.
Qed.
(** ... and on bytes *)
Definition bits_of_bytes (us : list Z) : list bool := flat_map (bits_be 8) us.
Lemma bits_of_bytes_length : forall us, length (bits_of_bytes us) = (8 * length us)%nat.
Proof. induction us as [|u us IH]; [reflexivity|]. unfold bits_of_bytes in *. cbn [flat_map length]. rewrite app_length, IH, bits_be_length. lia. Qed.
Lemma bits_of_bytes_nth : forall us i j u b, nth_error us i = Some u -> (j < 8)%nat -> nth_error (bits_be 8 u) j = Some b -> nth_error (bits_of_bytes us) (8 * i + j) = Some b.
Proof.
  induction us as [|v us IH]; intros [|i] j u b H Hj Hb; try discriminate H.
  - injection H as ->. unfold bits_of_bytes. cbn [flat_map]. rewrite nth_error_app1 by (rewrite bits_be_length; lia). exact Hb.
  - unfold bits_of_bytes. cbn [flat_map]. rewrite nth_error_app2 by (rewrite bits_be_length; lia). rewrite bits_be_length. replace (8 * S i + j - 8)%nat with (8 * i + j)%nat by lia. exact (IH i j u b H Hj Hb).
Qed.
Definition u8arr (us : list Z) : value_ := VArray (map (VUint W8) us).
Lemma bytes_call : forall k us, 8 * len (length us) + 577 < 2 ^ 32 ->
  scall sha (S (S (S (S (S (S k)))))) g_bytes [len (length us)] [u8s (length us)] (u32s 8) [u8arr us] = Ok ([], uarr_ (hashw (rows (code_pad (bits_of_bytes us)) (nblocks (8 * length us))))).
Proof.
  intros k us H. set (n := length us) in *. set (T := bits_of_bytes us). assert (LT : length T = (8 * n)%nat) by apply bits_of_bytes_length.
  assert (D : sha g_bytes [len n] [u8s n] (u32s 8) = Some (sha256Bytes n)).
  { apply sha_intro; [cbn [sha_sig g_bytes]; replace (8 * len n) with (len (8 * n)) by (unfold len; lia); rewrite msg_of by (unfold len in *; lia); rewrite !to_len; reflexivity|cbn [tys_eqb ty_eqb u8s uwn Nat.eqb andb]; rewrite Nat.eqb_refl; reflexivity|reflexivity]. }
  eapply call_here'; [exact D|reflexivity|reflexivity|]. cbn [map fst rbind].
  eapply step. { eapply ex_def. unfold umul_, uv, iv, ul. eapply ev_to; [run2|]. cbn [sem_op sem_uop of_opt option_map uwn]. rewrite StdSpec.wrap32 by (unfold len in *; lia). replace (len n * 8) with (len (8 * n)) by (unfold len; lia). reflexivity. }
  eapply step. { eapply ex_def. unfold bl, uv, iv. eapply ev_par; [run2|run2|reflexivity| |]; [cbn [par_op]; unfold len; rewrite Z.eqb_refl; reflexivity|reflexivity]. }
  eapply step_for with (P := fun r => r (src 2) = Some (VUint W32 (len (8 * n))) /\ r (src 3) = Some (vbits T)).
  2: { intros r [P2 P3]. apply step_end. pose proof (padded_call k T) as Q. rewrite LT in Q. eapply ev_call; [unfold uv, iv; run2|unfold iv; run2|reflexivity|]. apply Q. unfold len in *. lia. }
  match goal with |- exists r1, ex _ ?rr _ r1 /\ _ => destruct (ex_for (scall sha (S (S (S (S (S k)))))) (fun i r => r (src 0) = Some (u8arr us) /\ r (src 2) = Some (VUint W32 (len (8 * n))) /\ r (src 3) = Some (partial_bits T (8 * Z.to_nat i))) rr (src 4) (ul 0) (uv 1)
       [SDef (src 5) (bits_ty 8) (SCall [CUint W8] (bits_ty 8) g_to_bits [] [sel_ (CUint W8) (iv (u8s n) 0) (uv 4)]);
        SFor (src 6) (ul 0) (ul 8)
          [SSet (src 3) (bits_ty (8 * n)) [SASel (uadd_ (umul_ (uv 4) (ul 8)) (uv 6))] (sel_ CBool (iv (bits_ty 8) 5) (uv 6))]] 0 (len n) W32 W32) as [r [E [_ [P2 P3]]]] end.
  - unfold ul. run2.
  - unfold uv, iv. run2.
  - unfold len. lia.
  - split; [look|]. split; [look|]. rewrite rupd_same. unfold partial_bits. change (8 * Z.to_nat 0)%nat with 0%nat. rewrite Nat.sub_0_r, LT. reflexivity.
  - intros i r Hi [P0 [P2 P3]]. assert (Hi' : (Z.to_nat i < n)%nat) by (unfold len in Hi; lia). destruct (nth_error us (Z.to_nat i)) as [u|] eqn:Eu; [|apply nth_error_None in Eu; fold n in Eu; lia].
    destruct (ex_for (scall sha (S (S (S (S (S k)))))) (fun j r => r (src 0) = Some (u8arr us) /\ r (src 2) = Some (VUint W32 (len (8 * n))) /\ r (src 4) = Some (VUint W32 i) /\ r (src 5) = Some (vbits (bits_be 8 u)) /\ r (src 3) = Some (partial_bits T (8 * Z.to_nat i + Z.to_nat j)))
      (rupd (rupd r (src 4) (VUint W32 i)) (src 5) (vbits (bits_be 8 u))) (src 6) (ul 0) (ul 8) [SSet (src 3) (bits_ty (8 * n)) [SASel (uadd_ (umul_ (uv 4) (ul 8)) (uv 6))] (sel_ CBool (iv (bits_ty 8) 5) (uv 6))] 0 8 W32 W32) as [r2 [E2 [Q0 [Q2 [_ [_ Q3]]]]]].
    + unfold ul. run2.
    + unfold ul. run2.
    + lia.
    + split; [look|]. split; [look|]. split; [look|]. split; [look|]. change (Z.to_nat 0) with 0%nat. rewrite Nat.add_0_r. look.
    + intros j r2 Hj [Q0 [Q1 [Q2 [Q3 Q4]]]]. destruct (nth_bit (bits_be 8 u) (Z.to_nat j)) as [b [B1 B2]]; [rewrite bits_be_length; lia|]. eexists. split.
      * eapply exs_cons; [|apply exs_nil]. eapply ex_set.
        -- unfold sel_, iv, uv, iv. run1; [lia|exact B2].
        -- unfold uadd_, umul_, uv, iv, ul. run1.
        -- rewrite rupd_src by discriminate. exact Q4.
        -- cbn [uwn]. rewrite (StdSpec.wrap32 (i * 8)) by (unfold len in *; lia). rewrite StdSpec.wrap32 by (unfold len in *; lia). apply put_bit; [|lia|lia]. eapply bits_of_bytes_nth; [exact Eu|lia|exact B1].
      * split; [look|]. split; [look|]. split; [look|]. split; [look|]. rewrite rupd_same. do 2 f_equal. lia.
    + exists r2. split.
      * eapply exs_cons; [eapply ex_def; eapply ev_call; [apply evs_nil| |reflexivity|exact (to_bits_sha (S (S (S (S k)))) W8 u)]|].
        -- eapply evs_cons; [|apply evs_nil]. unfold sel_, iv, uv, iv. run1; [lia|]. rewrite (map_nth_error _ _ _ Eu). reflexivity.
        -- eapply exs_cons; [exact E2|apply exs_nil].
      * split; [exact Q0|]. split; [exact Q2|]. rewrite Q3. do 2 f_equal. change (Z.to_nat 8) with 8%nat. lia.
  - exists r. split; [exact E|]. split; [exact P2|]. rewrite P3, to_len. unfold partial_bits. rewrite LT, Nat.sub_diag. cbn [repeat]. rewrite app_nil_r. rewrite <- LT, firstn_all. reflexivity.
Qed.
End Pad.
