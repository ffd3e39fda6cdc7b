(** SHA-256 of messages of bits and bytes, and what it has to do with the words the library works on. *)
From Coq Require Import ZArith NArith List Bool Lia.
From Verif Require Import Bytes Sha256.
From Verif Require Import PField Concrete Interp Bits Std StdRun StdSpec Sha ShaRun ShaRound ShaHash ShaPad.
Import ListNotations.
Open Scope list_scope.
Open Scope Z_scope.

(** ** Specification *)
(** the bytes of a list of words, as FIPS 180-4 writes the state and the hash: most significant byte first *)
Definition be_bytes (ws : list Z) : list Z := flat_map (fun x => rev (le 4 x)) ws.
(** the bytes of a list of bits, eight at a time, most significant first *)
Definition octets (bits : list bool) : list Z := map (fun i => bv (firstn 8 (skipn (8 * i) bits))) (seq 0 (length bits / 8)).
(** FIPS 180-4, 5.1.1: append a 1, then as few 0s as needed, then the length of the message in 64 bits *)
Definition pad_bits (m : list bool) : list bool := m ++ [true] ++ repeat false (Z.to_nat ((447 - Z.of_nat (length m)) mod 512)) ++ bits_be 64 (Z.of_nat (length m)).
(** FIPS 180-4, 6.2, for a message of any number of bits *)
Definition sha256_bits (m : list bool) : list Z := let p := octets (pad_bits m) in be_bytes (fold_left compress (Sha256.chunks (length p) 64 p) sha_h0).

(** ** Words, bytes and bits *)
Lemma be4 : forall x, is32 x -> bev (rev (le 4 x)) 0 = x.
Proof.
  intros x [H0 H1]. cbn [le rev app bev]. pose proof (Z.div_mod x 256 ltac:(lia)). pose proof (Z.div_mod (x / 256) 256 ltac:(lia)). pose proof (Z.div_mod (x / 256 / 256) 256 ltac:(lia)).
  assert (E : x / 256 / 256 / 256 < 256) by (rewrite !Z.div_div by lia; apply Z.div_lt_upper_bound; lia). assert (E0 : 0 <= x / 256 / 256 / 256) by (rewrite !Z.div_div by lia; apply Z.div_pos; lia).
  rewrite (Z.mod_small (x / 256 / 256 / 256)) by lia. lia.
Qed.
Lemma be_bytes_length : forall ws, length (be_bytes ws) = (4 * length ws)%nat.
Proof. induction ws as [|w ws IH]; [reflexivity|]. unfold be_bytes in *. cbn [flat_map]. rewrite app_length, IH, rev_length, le_length. cbn [length]. lia. Qed.
Lemma chunks_app : forall f n a b, length a = n -> (0 < n)%nat -> Sha256.chunks (S f) n (a ++ b) = a :: Sha256.chunks f n b.
Proof.
  intros f n a b L H. cbn [Sha256.chunks]. destruct (a ++ b) as [|x r] eqn:E; [exfalso; assert (length (a ++ b) = 0%nat) as Q by (rewrite E; reflexivity); rewrite app_length in Q; lia|]. rewrite <- E. rewrite firstn_app, skipn_app, L, Nat.sub_diag. cbn [firstn skipn]. rewrite app_nil_r, firstn_all2, skipn_all2 by lia. reflexivity.
Qed.
Lemma chunks_nil : forall f n, Sha256.chunks f n [] = [].
Proof. intros [|f] n; reflexivity. Qed.
Lemma chunks_words : forall ws f, Forall is32 ws -> (length ws <= f)%nat -> map (fun c => bev c 0) (Sha256.chunks f 4 (be_bytes ws)) = ws.
Proof.
  induction ws as [|w ws IH]; intros f H L; [cbn; rewrite chunks_nil; reflexivity|]. destruct f as [|f]; [cbn in L; lia|]. inversion H as [|? ? Hw Hs]; subst. unfold be_bytes. cbn [flat_map]. rewrite chunks_app by (rewrite ?rev_length, ?le_length; lia). cbn [map]. rewrite be4 by exact Hw. f_equal. apply IH; [exact Hs|cbn in L; lia].
Qed.
Lemma compress_be : forall h ws, length ws = 16%nat -> Forall is32 ws -> compress h (be_bytes ws) = compressw h ws.
Proof. intros h ws L H. rewrite compress_words, chunks_words; [reflexivity|exact H|lia]. Qed.
Lemma chunks_blocks : forall bs f, Forall block_ok bs -> (length bs <= f)%nat -> Sha256.chunks f 64 (be_bytes (concat bs)) = map be_bytes bs.
Proof.
  induction bs as [|b bs IH]; intros f H L; [cbn; rewrite chunks_nil; reflexivity|]. destruct f as [|f]; [cbn in L; lia|]. inversion H as [|? ? Hb Hs]; subst. cbn [concat map]. unfold be_bytes. rewrite flat_map_app. fold (be_bytes b) (be_bytes (concat bs)). destruct Hb as [Lb Hb]. rewrite chunks_app by (rewrite ?be_bytes_length, ?Lb; lia). f_equal. apply IH; [exact Hs|cbn in L; lia].
Qed.
Lemma fold_blocks : forall bs h, Forall block_ok bs -> fold_left compress (map be_bytes bs) h = fold_left compressw bs h.
Proof. induction bs as [|b bs IH]; intros h H; [reflexivity|]. inversion H as [|? ? [Lb Hb] Hs]; subst. cbn [map fold_left]. rewrite compress_be by assumption. apply IH, Hs. Qed.
Lemma concat_length : forall bs, Forall block_ok bs -> length (be_bytes (concat bs)) = (64 * length bs)%nat.
Proof. intros bs H. rewrite be_bytes_length. induction H as [|b bs [L _] H IH]; [reflexivity|]. cbn [concat length]. rewrite app_length, L. lia. Qed.
(** the hash of a message that is padded into the blocks [bs] *)
Lemma sha_blocks : forall p bs, Forall block_ok bs -> p = be_bytes (concat bs) -> be_bytes (fold_left compress (Sha256.chunks (length p) 64 p) sha_h0) = be_bytes (hashw bs).
Proof. intros p bs H ->. rewrite chunks_blocks by (rewrite ?concat_length by exact H; first [exact H|lia]). rewrite fold_blocks by exact H. reflexivity. Qed.

Lemma octets_app : forall a b, (length a mod 8 = 0)%nat -> octets (a ++ b) = octets a ++ octets b.
Proof.
  intros a b H. apply Nat.mod_divides in H as [c Hc]; [|lia]. unfold octets. rewrite app_length, Hc. replace (8 * c + length b)%nat with (length b + c * 8)%nat by lia. rewrite Nat.div_add by lia. rewrite (Nat.mul_comm 8 c), Nat.div_mul by lia. rewrite (Nat.add_comm _ c), seq_app, map_app. f_equal.
  - apply map_ext_in. intros i J. apply in_seq in J. rewrite skipn_app, firstn_app, skipn_length. replace (8 - (length a - 8 * i))%nat with 0%nat by lia. cbn [firstn]. rewrite app_nil_r. reflexivity.
  - rewrite Nat.add_0_l. replace (seq c (length b / 8)) with (map (fun i => (c + i)%nat) (seq 0 (length b / 8))) by (generalize (length b / 8)%nat; clear; intros n; apply nth_ext with (d := 0%nat) (d' := 0%nat); [rewrite map_length, !seq_length; reflexivity|intros i Hi; rewrite map_length, seq_length in Hi; rewrite (nth_indep _ 0%nat (c + 0)%nat) by (rewrite map_length, seq_length; exact Hi); rewrite map_nth, !seq_nth by exact Hi; lia]).
    rewrite map_map. apply map_ext_in. intros i J. rewrite skipn_app. rewrite skipn_all2 by lia. cbn [app]. do 3 f_equal. lia.
Qed.
Lemma octets_small : forall a, length a = 8%nat -> octets a = [bv a].
Proof. intros a H. unfold octets. rewrite H. change (8 / 8)%nat with 1%nat. cbn [seq map]. change (8 * 0)%nat with 0%nat. change (skipn 0 a) with a. rewrite firstn_all2 by (rewrite H; apply le_n). reflexivity. Qed.
Definition is8 (x : Z) : Prop := 0 <= x < 256.
Lemma octets_bytes : forall us, Forall is8 us -> octets (bits_of_bytes us) = us.
Proof.
  intros us H. induction H as [|u us Hu H IH]; [reflexivity|]. unfold bits_of_bytes. cbn [flat_map]. rewrite octets_app by (rewrite bits_be_length; reflexivity). rewrite octets_small by apply bits_be_length. rewrite bv_bits_be. fold (bits_of_bytes us). rewrite IH. unfold pow2. rewrite Z.mod_small by exact Hu. reflexivity.
Qed.
Lemma octets_length : forall bits n, length bits = (8 * n)%nat -> length (octets bits) = n.
Proof. intros bits n H. unfold octets. rewrite map_length, seq_length, H, Nat.mul_comm, Nat.div_mul by lia. reflexivity. Qed.
Lemma bits_octets : forall n bits, length bits = (8 * n)%nat -> bits_of_bytes (octets bits) = bits.
Proof.
  induction n as [|n IH]; intros bits H; [destruct bits; [reflexivity|discriminate H]|]. rewrite <- (firstn_skipn 8 bits) at 1. rewrite octets_app by (rewrite firstn_length, Nat.min_l by lia; reflexivity). rewrite octets_small by (rewrite firstn_length; lia). unfold bits_of_bytes. cbn [app flat_map]. fold (bits_of_bytes (octets (skipn 8 bits))). rewrite IH by (rewrite skipn_length; lia).
  replace 8%nat with (length (firstn 8 bits)) at 1 by (rewrite firstn_length; lia). rewrite bits_be_bv. apply firstn_skipn.
Qed.
Lemma octets_8 : forall n bits, length bits = (8 * n)%nat -> Forall is8 (octets bits).
Proof. intros n bits H. apply Forall_forall. intros x J. apply in_map_iff in J as [i [<- J]]. pose proof (bv_range (firstn 8 (skipn (8 * i) bits))) as [R0 R1]. split; [exact R0|]. eapply Z.lt_le_trans; [exact R1|]. change 256 with (pow2 8). unfold pow2. apply Z.pow_le_mono_r; [lia|]. rewrite firstn_length. lia. Qed.
(** 32 bits, as a word and as four bytes *)
Lemma octets_32 : forall a, length a = 32%nat -> octets a = rev (le 4 (bv a)).
Proof.
  intros a H. rewrite <- (bits_octets 4 a) at 2 by exact H. pose proof (octets_8 4 a H) as F. assert (L : length (octets a) = 4%nat) by (apply octets_length; exact H). destruct (octets a) as [|x [|y [|z [|w [|? ?]]]]]; try discriminate L.
  inversion F as [|? ? Fx F1]; subst. inversion F1 as [|? ? Fy F2]; subst. inversion F2 as [|? ? Fz F3]; subst. inversion F3 as [|? ? Fw _]; subst. unfold is8 in *. unfold bits_of_bytes. cbn [flat_map]. rewrite !bv_app, !app_length, !bits_be_length, !bv_bits_be. cbn [length bv]. change (pow2 8) with 256. change (pow2 (8 + (8 + (8 + 0)))) with (256 * 256 * 256). change (pow2 (8 + (8 + 0))) with (256 * 256). change (pow2 (8 + 0)) with 256. change (pow2 0) with 1. rewrite !(Z.mod_small _ 256) by assumption.
  cbn [le rev app]. set (v := x * (256 * 256 * 256) + (y * (256 * 256) + (z * 256 + (w * 1 + 0)))).
  assert (E1 : v mod 256 = w) by (unfold v; replace (x * (256 * 256 * 256) + (y * (256 * 256) + (z * 256 + (w * 1 + 0)))) with (w + (x * (256 * 256) + y * 256 + z) * 256) by ring; rewrite Z_mod_plus_full, Z.mod_small by assumption; reflexivity).
  assert (D1 : v / 256 = x * (256 * 256) + y * 256 + z) by (unfold v; replace (x * (256 * 256 * 256) + (y * (256 * 256) + (z * 256 + (w * 1 + 0)))) with (w + (x * (256 * 256) + y * 256 + z) * 256) by ring; rewrite Z.div_add, Z.div_small by (assumption || lia); lia).
  assert (E2 : v / 256 mod 256 = z) by (rewrite D1; replace (x * (256 * 256) + y * 256 + z) with (z + (x * 256 + y) * 256) by ring; rewrite Z_mod_plus_full, Z.mod_small by assumption; reflexivity).
  assert (D2 : v / 256 / 256 = x * 256 + y) by (rewrite D1; replace (x * (256 * 256) + y * 256 + z) with (z + (x * 256 + y) * 256) by ring; rewrite Z.div_add, Z.div_small by (assumption || lia); lia).
  assert (E3 : v / 256 / 256 mod 256 = y) by (rewrite D2; replace (x * 256 + y) with (y + x * 256) by ring; rewrite Z_mod_plus_full, Z.mod_small by assumption; reflexivity).
  assert (E4 : v / 256 / 256 / 256 mod 256 = x) by (rewrite D2; replace (x * 256 + y) with (y + x * 256) by ring; rewrite Z.div_add, (Z.div_small y) by (assumption || lia); rewrite Z.mod_small by lia; lia).
  rewrite E1, E2, E3, E4. reflexivity.
Qed.
Lemma skipn_more : forall {A} (l : list A) n k, skipn k (skipn n l) = skipn (n + k) l.
Proof. intros A l n k. revert l. induction n as [|n IH]; intros [|x l]; [reflexivity|reflexivity|rewrite !skipn_nil; reflexivity|exact (IH l)]. Qed.
Lemma firstn_more : forall {A} (s : list A) n m, firstn n s ++ firstn m (skipn n s) = firstn (n + m) s.
Proof. intros A s n m. revert s. induction n as [|n IH]; intros [|x s]; [reflexivity|reflexivity|rewrite skipn_nil, !firstn_nil; reflexivity|]. cbn [firstn skipn app Nat.add]. f_equal. apply IH. Qed.
Lemma words_octets : forall k o bits, (32 * (o + k) <= length bits)%nat -> be_bytes (map (fun j => StdSpec.word bits j) (seq o k)) = octets (firstn (32 * k) (skipn (32 * o) bits)).
Proof.
  induction k as [|k IH]; intros o bits H; [reflexivity|]. cbn [seq map]. unfold be_bytes. cbn [flat_map]. fold (be_bytes (map (fun j => StdSpec.word bits j) (seq (S o) k))). rewrite IH by lia. unfold StdSpec.word. set (s := skipn (32 * o) bits). assert (Ls : length s = (length bits - 32 * o)%nat) by apply skipn_length.
  rewrite <- octets_32 by (rewrite firstn_length; lia). rewrite <- octets_app by (rewrite firstn_length, Nat.min_l by lia; reflexivity). f_equal. replace (32 * S k)%nat with (32 + 32 * k)%nat by lia. rewrite <- firstn_more. unfold s. rewrite skipn_more. do 3 f_equal. lia.
Qed.
Lemma seq_off : forall {A} (f : nat -> A) o k z, map f (seq (o + z) k) = map (fun j => f (o + j)%nat) (seq z k).
Proof. intros A f o k. induction k as [|k IH]; intros z; [reflexivity|]. cbn [seq map]. f_equal. rewrite plus_n_Sm. apply IH. Qed.
Lemma rows_octets : forall n bits, length bits = (512 * n)%nat -> be_bytes (concat (rows bits n)) = octets bits.
Proof.
  intros n bits H. transitivity (be_bytes (map (fun j => StdSpec.word bits j) (seq 0 (16 * n)))).
  - f_equal. unfold rows. clear H. induction n as [|n IH]; [reflexivity|]. rewrite seq_S, map_app, concat_app, IH. cbn [map concat Nat.add]. rewrite app_nil_r. replace (16 * S n)%nat with (16 * n + 16)%nat by lia. rewrite seq_app, map_app. f_equal. unfold row. rewrite Nat.add_0_l. pose proof (seq_off (fun j => StdSpec.word bits j) (16 * n) 16 0) as Q. rewrite Nat.add_0_r in Q. symmetry. exact Q.
  - rewrite words_octets by lia. cbn [Nat.mul skipn Nat.add]. f_equal. change (skipn 0 bits) with bits. apply firstn_all2. lia.
Qed.
(** ** Padding *)
Lemma split64 : forall x, 0 <= x < 2 ^ 32 -> bits_be 64 x = repeat false 32 ++ bits_be 32 x.
Proof.
  intros x H. apply bv_inj; [rewrite app_length, repeat_length, !bits_be_length; reflexivity|]. rewrite bv_zeros_app, !bv_bits_be. unfold pow2. rewrite !Z.mod_small; [reflexivity|exact H|]. split; [lia|]. eapply Z.lt_trans; [apply H|]. reflexivity.
Qed.
Lemma pad_same : forall m, len (length m) < 2 ^ 32 -> ((length m + 65) mod 512 <> 0)%nat -> code_pad m = pad_bits m.
Proof.
  intros m H N. unfold code_pad, pad_bits. unfold len in *. rewrite split64 by lia. do 2 f_equal. rewrite app_assoc, <- repeat_app. do 2 f_equal. unfold zeros. f_equal. set (n := length m) in *.
  pose proof (Nat.mod_upper_bound (n + 65) 512 ltac:(lia)) as U. assert (E : (447 - Z.of_nat n) mod 512 = 512 - Z.of_nat ((n + 65) mod 512)).
  { rewrite Nat2Z.inj_mod, Nat2Z.inj_add. change (Z.of_nat 65) with 65. change (Z.of_nat 512) with 512. pose proof (Z.div_mod (Z.of_nat n + 65) 512 ltac:(lia)) as D. assert (M : Z.of_nat ((n + 65) mod 512) = (Z.of_nat n + 65) mod 512) by (rewrite Nat2Z.inj_mod, Nat2Z.inj_add; reflexivity). symmetry. apply (Z.mod_unique _ _ (- ((Z.of_nat n + 65) / 512))); [left; lia|lia]. }
  rewrite E. lia.
Qed.
Lemma pad_bits_length : forall m, (length (pad_bits m) mod 8 = 0)%nat /\ exists n, length (pad_bits m) = (512 * n)%nat.
Proof.
  intros m. assert (G : exists n, length (pad_bits m) = (512 * n)%nat).
  { unfold pad_bits. rewrite !app_length, repeat_length, bits_be_length. cbn [length]. set (l := length m). exists (Z.to_nat (1 - (447 - Z.of_nat l) / 512)). pose proof (Z.div_mod (447 - Z.of_nat l) 512 ltac:(lia)) as D. pose proof (Z.mod_pos_bound (447 - Z.of_nat l) 512 ltac:(lia)). lia. }
  split; [|exact G]. destruct G as [n E]. rewrite E. replace (512 * n)%nat with ((64 * n) * 8)%nat by lia. apply Nat.mod_mul. lia.
Qed.
(** the hash of the padded message, from the words of its blocks *)
Lemma hash_bits : forall m n, length (pad_bits m) = (512 * n)%nat -> be_bytes (hashw (rows (pad_bits m) n)) = sha256_bits m.
Proof. intros m n H. symmetry. unfold sha256_bits. apply sha_blocks; [apply rows_ok; lia|]. symmetry. apply rows_octets. exact H. Qed.
(** on whole bytes this is SHA-256 of the bytes *)
Lemma octets_zeros : forall n, octets (repeat false (8 * n)) = repeat 0 n.
Proof.
  induction n as [|n IH]; [reflexivity|]. replace (8 * S n)%nat with (8 + 8 * n)%nat by lia. rewrite repeat_app, octets_app by (rewrite repeat_length; reflexivity). rewrite IH. reflexivity.
Qed.
Lemma octets_be : forall n x, octets (bits_be (8 * n) x) = rev (le n x).
Proof.
  induction n as [|n IH]; intros x; [reflexivity|]. cbn [le rev]. rewrite <- IH. replace (bits_be (8 * S n) x) with (bits_be (8 * n) (x / 256) ++ bits_be 8 x).
  - rewrite octets_app by (rewrite bits_be_length, Nat.mul_comm; apply Nat.mod_mul; lia). rewrite (octets_small (bits_be 8 x)) by apply bits_be_length. rewrite bv_bits_be. reflexivity.
  - apply bv_inj; [rewrite app_length, !bits_be_length; lia|]. rewrite bv_app, !bv_bits_be, bits_be_length. change (pow2 8) with 256. replace (8 * S n)%nat with (8 + 8 * n)%nat by lia. rewrite pow2_add. change (pow2 8) with 256. pose proof (pow2_pos (8 * n)). rewrite Z.rem_mul_r by lia. ring.
Qed.
Theorem sha_bits_bytes : forall us, Forall is8 us -> sha256_bits (bits_of_bytes us) = sha256 us.
Proof.
  intros us H. unfold sha256_bits, sha256. assert (E : octets (pad_bits (bits_of_bytes us)) = pad us); [|rewrite E; reflexivity].
  unfold pad_bits, pad. rewrite bits_of_bytes_length. assert (L8 : (length (bits_of_bytes us) mod 8 = 0)%nat) by (rewrite bits_of_bytes_length, Nat.mul_comm; apply Nat.mod_mul; lia). rewrite octets_app by exact L8. rewrite octets_bytes by exact H. f_equal. set (n := length us). 
  replace (Z.of_nat (8 * n)) with (8 * Z.of_nat n) by lia. assert (Q : Z.to_nat ((447 - 8 * Z.of_nat n) mod 512) = (7 + 8 * Z.to_nat ((55 - Z.of_nat n) mod 64))%nat).
  { pose proof (Z.div_mod (55 - Z.of_nat n) 64 ltac:(lia)) as D. pose proof (Z.mod_pos_bound (55 - Z.of_nat n) 64 ltac:(lia)) as B. assert (M : (447 - 8 * Z.of_nat n) mod 512 = 7 + 8 * ((55 - Z.of_nat n) mod 64)) by (symmetry; apply (Z.mod_unique _ _ ((55 - Z.of_nat n) / 64)); [left; lia|lia]). rewrite M. lia. }
  rewrite Q, repeat_app. rewrite <- !app_assoc. rewrite app_assoc. rewrite octets_app by reflexivity. change (octets ([true] ++ repeat false 7)) with [128]. f_equal. rewrite octets_app by (rewrite repeat_length, Nat.mul_comm; apply Nat.mod_mul; lia). rewrite octets_zeros. f_equal. exact (octets_be 8 (8 * Z.of_nat n)).
Qed.
