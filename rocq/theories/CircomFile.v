(** The bytes of the circom exports. Models /repo/zokrates_circom/src/r1cs.rs (write_header, write_r1cs, write_constraints, write_lincomb,
    write_table) and /repo/zokrates_circom/src/witness.rs (write_header, write_witness, write_val), on top of the tables of Circom.v.
    A write error of the stream is not modelled. *)
From Coq Require Import ZArith List Bool Lia.
From Verif Require Import PField SMap IR IRSpec Interp InterpProofs Circom Bytes.
Import ListNotations.
Open Scope Z_scope.

(** num_bigint's BigUint::to_bytes_le: the shortest little-endian form, one byte for 0 *)
Definition to_bytes_le (v : Z) : list Z := le (Z.to_nat (Z.log2 v / 8 + 1)) v.
(** r1cs.rs l.207-211 and witness.rs l.68-72: a buffer of n zero bytes zipped with the bytes of the value *)
Definition padded (n : nat) (bs : list Z) : list Z := firstn n bs ++ repeat 0 (n - length bs).

Section CircomFile.
Context {PF : PrimeField}.
(** r1cs.rs l.129, witness.rs l.31 modulo_byte_count *)
Definition mbc : nat := length (to_bytes_le pp).
(** r1cs.rs l.202-213 write_lincomb: 32 bytes per coefficient *)
Definition write_summand (t : nat * F) : list Z := le 4 (Z.of_nat (fst t)) ++ padded 32 (to_bytes_le (fval (snd t))).
Definition write_lincomb (l : list (nat * F)) : list Z := le 4 (Z.of_nat (length l)) ++ flat_map write_summand l.
(** r1cs.rs l.190-200 write_constraints *)
Definition write_row (r : row) : list Z := match r with (a, b, c) => write_lincomb a ++ write_lincomb b ++ write_lincomb c end.
(** r1cs.rs l.164-172: the size declared for the constraints section *)
Definition row_size (r : row) : Z := match r with (a, b, c) => 3 * 4 + (Z.of_nat (length a) + Z.of_nat (length b) + Z.of_nat (length c)) * (Z.of_nat mbc + 4) end.
Definition rows_size (rows : list row) : Z := fold_right (fun r s => row_size r + s) 0 rows.
(** r1cs.rs l.22-33 write_header with the header of l.139-150 *)
Definition header_bytes (p : prog) (vs : list var) (rows : list row) : list Z :=
  le 4 (Z.of_nat mbc) ++ to_bytes_le pp ++ le 4 (Z.of_nat (length vs)) ++ le 4 (Z.of_nat (pret p)) ++
  le 4 (Z.of_nat (length (filter (fun a => negb (pprivate a)) (pargs p)))) ++ le 4 (Z.of_nat (length (filter pprivate (pargs p)))) ++
  le 8 (Z.of_nat (length vs)) ++ le 4 (Z.of_nat (length rows)).
(** r1cs.rs l.215-221 write_table *)
Definition table_bytes (vs : list var) : list Z := flat_map (fun i => le 8 (Z.of_nat i)) (seq 0 (length vs)).
(** r1cs.rs l.128-188 write_r1cs; [None]: r1cs_program panics *)
Definition write_r1cs (p : prog) : option (list Z) :=
  match r1cs_program p with
  | None => None
  | Some (vs, _, rows) => Some (
      [114; 49; 99; 115] ++ le 4 1 ++ le 4 3 ++
      le 4 2 ++ le 8 (rows_size rows) ++ flat_map write_row rows ++
      le 4 1 ++ le 8 (32 + 32) ++ header_bytes p vs rows ++
      le 4 3 ++ le 8 (Z.of_nat (length vs) * 8) ++ table_bytes vs)
  end.
(** witness.rs l.26-64 write_witness, l.66-75 write_val *)
Definition write_val (v : F) : list Z := padded mbc (to_bytes_le (fval v)).
Definition write_witness (public_inputs : list var) (w : smap F) : option (list Z) :=
  match witness_entries public_inputs w with
  | None => None
  | Some e => Some (
      [119; 116; 110; 115] ++ le 4 2 ++ le 4 2 ++
      le 4 1 ++ le 8 (8 + Z.of_nat mbc) ++ le 4 (Z.of_nat mbc) ++ to_bytes_le pp ++ le 4 (Z.of_nat (length w)) ++
      le 4 2 ++ le 8 (Z.of_nat (length w) mod 2 ^ 32 * Z.of_nat mbc) ++ flat_map (fun t => write_val (snd t)) e)
  end.
End CircomFile.

(** ** The formats (iden3/r1csfile and snarkjs' wtns format): a magic number, a version, a number of sections; each section is a type, a
    size in bytes and that many bytes. Section 1 of an r1cs file is its header, section 2 its constraints, section 3 a label per wire;
    coefficients have the byte size the header gives. This part does not depend on the code. *)
Fixpoint read_many {A} (n : nat) (r : reader A) : reader (list A) :=
  match n with O => rret [] | Datatypes.S k => rbind r (fun a => rbind (read_many k r) (fun l => rret (a :: l))) end.
Definition read_size (n : Z) : reader (list Z) := fun bs => if Z.of_nat (length bs) <? n then None else read_exact (Z.to_nat n) bs.
Definition read_section : reader (Z * list Z) := rbind (read_le 4) (fun t => rbind (read_le 8) (fun n => rbind (read_size n) (fun b => rret (t, b)))).
Definition all_of {A} (r : reader A) (bs : list Z) : option A := match r bs with Some (a, []) => Some a | _ => None end.
Fixpoint find_section (t : Z) (l : list (Z * list Z)) : option (list Z) :=
  match l with [] => None | (t', b) :: r => if t =? t' then Some b else find_section t r end.
Fixpoint list_eqb (a b : list Z) : bool := match a, b with [], [] => true | x :: r, y :: s => (x =? y) && list_eqb r s | _, _ => false end.
Definition read_container (magic : list Z) (version : Z) : reader (list (Z * list Z)) :=
  rbind (read_exact 4) (fun m => rbind (read_le 4) (fun v => if list_eqb m magic && (v =? version) then rbind (read_le 4) (fun n => read_many (Z.to_nat n) read_section) else rfail)).
Record r1cs_header := mkR1csHeader { h_n8 : Z; h_prime : Z; h_wires : Z; h_out : Z; h_in : Z; h_prv : Z; h_labels : Z; h_rows : Z }.
Definition read_r1cs_header : reader r1cs_header :=
  rbind (read_le 4) (fun n8 => rbind (read_le (Z.to_nat n8)) (fun pr => rbind (read_le 4) (fun w => rbind (read_le 4) (fun o => rbind (read_le 4) (fun i =>
  rbind (read_le 4) (fun s => rbind (read_le 8) (fun l => rbind (read_le 4) (fun n => rret (mkR1csHeader n8 pr w o i s l n))))))))).
(** a linear combination: wires with coefficients *)
Definition zlc := list (Z * Z).
Definition read_lc (n8 : nat) : reader zlc := rbind (read_le 4) (fun n => read_many (Z.to_nat n) (rbind (read_le 4) (fun w => rbind (read_le n8) (fun c => rret (w, c))))).
Definition read_row (n8 : nat) : reader (zlc * zlc * zlc) := rbind (read_lc n8) (fun a => rbind (read_lc n8) (fun b => rbind (read_lc n8) (fun c => rret (a, b, c)))).
Definition parse_r1cs (bs : list Z) : option (r1cs_header * list (zlc * zlc * zlc) * list Z) :=
  match all_of (read_container [114; 49; 99; 115] 1) bs with
  | None => None
  | Some ss =>
      match find_section 1 ss, find_section 2 ss, find_section 3 ss with
      | Some b1, Some b2, Some b3 =>
          match all_of read_r1cs_header b1 with
          | None => None
          | Some h => match all_of (read_many (Z.to_nat (h_rows h)) (read_row (Z.to_nat (h_n8 h)))) b2, all_of (read_many (Z.to_nat (h_labels h)) (read_le 8)) b3 with
                      | Some rows, Some t => Some (h, rows, t) | _, _ => None end
          end
      | _, _, _ => None
      end
  end.
(** a wtns file: header (byte size of a value, prime, number of values), values *)
Definition parse_wtns (bs : list Z) : option (Z * Z * list Z) :=
  match all_of (read_container [119; 116; 110; 115] 2) bs with
  | None => None
  | Some ss =>
      match find_section 1 ss, find_section 2 ss with
      | Some b1, Some b2 =>
          match all_of (rbind (read_le 4) (fun n8 => rbind (read_le (Z.to_nat n8)) (fun pr => rbind (read_le 4) (fun n => rret (n8, pr, n))))) b1 with
          | None => None
          | Some (n8, pr, n) => match all_of (read_many (Z.to_nat n) (read_le (Z.to_nat n8))) b2 with Some vs => Some (n8, pr, vs) | None => None end
          end
      | _, _ => None
      end
  end.

(** ** Facts *)
Lemma byte_log : forall v, 0 <= v -> 0 <= Z.log2 v / 8.
Proof. intros v H. apply Z.div_pos; [apply Z.log2_nonneg|lia]. Qed.
Lemma to_bytes_fits : forall v, 0 <= v -> v < 256 ^ Z.of_nat (Z.to_nat (Z.log2 v / 8 + 1)).
Proof.
  intros v H. pose proof (byte_log v H). rewrite Z2Nat.id by lia. change 256 with (2 ^ 8). rewrite <- Z.pow_mul_r by lia.
  destruct (Z.eq_dec v 0) as [->|N]; [apply Z.pow_pos_nonneg; lia|]. apply Z.log2_lt_pow2; [lia|].
  pose proof (Z.div_mod (Z.log2 v) 8). pose proof (Z.mod_pos_bound (Z.log2 v) 8). lia.
Qed.
Lemma le_firstn : forall n m x, (n <= m)%nat -> firstn n (le m x) = le n x.
Proof. induction n as [|n IH]; intros m x H; [reflexivity|]. destruct m as [|m]; [lia|]. cbn [le firstn]. f_equal. apply IH. lia. Qed.
Lemma le_zero : forall n, le n 0 = repeat 0 n.
Proof. induction n as [|n IH]; cbn [le repeat]; [reflexivity|]. rewrite Z.mod_0_l, Z.div_0_l by lia. f_equal. exact IH. Qed.
Lemma le_extend : forall m n x, 0 <= x < 256 ^ Z.of_nat m -> le (m + n) x = le m x ++ repeat 0 n.
Proof.
  induction m as [|m IH]; intros n x H; cbn [le app Nat.add].
  - cbn in H. replace x with 0 by lia. apply le_zero.
  - f_equal. apply IH. rewrite Nat2Z.inj_succ, Z.pow_succ_r in H by lia. split; [apply Z.div_pos; lia|]. apply Z.div_lt_upper_bound; lia.
Qed.
Lemma padded_le : forall n v, 0 <= v -> padded n (to_bytes_le v) = le n v.
Proof.
  intros n v H. unfold padded, to_bytes_le. set (m := Z.to_nat (Z.log2 v / 8 + 1)). rewrite le_length. pose proof (to_bytes_fits v H) as K. fold m in K.
  destruct (Nat.le_gt_cases n m) as [L|L].
  - rewrite le_firstn by exact L. replace (n - m)%nat with O by lia. apply app_nil_r.
  - rewrite firstn_all2 by (rewrite le_length; lia). rewrite <- le_extend by lia. f_equal. lia.
Qed.
Section Facts.
Context {PF : PrimeField}.
Lemma mbc_eq : mbc = canon_bytes.
Proof.
  unfold mbc, to_bytes_le, canon_bytes, mod_bits. rewrite le_length. f_equal.
  replace (Z.log2 pp + 1 + 7) with (Z.log2 pp + 1 * 8) by lia. rewrite Z.div_add by lia. reflexivity.
Qed.
Lemma pp_fits : 0 <= pp < 256 ^ Z.of_nat mbc.
Proof. pose proof pp_gt1. split; [lia|]. unfold mbc, to_bytes_le. rewrite le_length. apply to_bytes_fits. lia. Qed.
Lemma pp_bytes : to_bytes_le pp = le mbc pp.
Proof. unfold mbc, to_bytes_le. rewrite le_length. reflexivity. Qed.
Lemma summand_le : forall t, write_summand t = le 4 (Z.of_nat (fst t)) ++ le 32 (fval (snd t)).
Proof. intros t. unfold write_summand. rewrite padded_le; [reflexivity|]. pose proof (fval_range (snd t)). lia. Qed.
Lemma val_le : forall v, write_val v = le mbc (fval v).
Proof. intros v. unfold write_val. apply padded_le. pose proof (fval_range v). lia. Qed.
Lemma val_fits : forall v : F, 0 <= fval v < 256 ^ Z.of_nat mbc.
Proof. intros v. rewrite mbc_eq. apply canon_fits. Qed.
Lemma val_length : forall v, length (write_val v) = mbc.
Proof. intros v. rewrite val_le. apply le_length. Qed.
Lemma lincomb_length : forall l, Z.of_nat (length (write_lincomb l)) = 4 + Z.of_nat (length l) * 36.
Proof.
  intros l. unfold write_lincomb. rewrite app_length, le_length. induction l as [|t l IH]; [reflexivity|].
  cbn [flat_map length]. rewrite !app_length. assert (S1 : length (write_summand t) = 36%nat) by (rewrite summand_le, app_length, !le_length; reflexivity). rewrite S1. lia.
Qed.
Lemma rows_length : forall rows, mbc = 32%nat -> Z.of_nat (length (flat_map write_row rows)) = rows_size rows.
Proof.
  intros rows H. induction rows as [|[[a b] c] rows IH]; [reflexivity|]. cbn [flat_map rows_size fold_right write_row row_size]. fold (rows_size rows).
  rewrite app_length, Nat2Z.inj_add, IH. rewrite !app_length, !Nat2Z.inj_add, !lincomb_length, H. lia.
Qed.
Lemma table_length : forall vs, Z.of_nat (length (table_bytes vs)) = Z.of_nat (length vs) * 8.
Proof.
  intros vs. unfold table_bytes. assert (G : forall l, Z.of_nat (length (flat_map (fun i => le 8 (Z.of_nat i)) l)) = Z.of_nat (length l) * 8); [|rewrite G, seq_length; reflexivity].
  induction l as [|i l IH]; [reflexivity|]. cbn [flat_map length]. rewrite app_length, le_length. lia.
Qed.
Lemma header_length : forall p vs rows, Z.of_nat (length (header_bytes p vs rows)) = 32 + Z.of_nat mbc.
Proof. intros p vs rows. unfold header_bytes. rewrite pp_bytes, !app_length, !le_length. lia. Qed.
End Facts.
(** ** Reading what was written *)
Lemma read_many_ok : forall A B (r : reader A) (w : B -> list Z) (f : B -> A) l rest, (forall b more, In b l -> r (w b ++ more) = Some (f b, more)) ->
  read_many (length l) r (flat_map w l ++ rest) = Some (map f l, rest).
Proof.
  intros A B r w f l rest. induction l as [|b l IH]; intros H; cbn [length read_many flat_map map]; [reflexivity|].
  unfold rbind at 1. rewrite <- app_assoc, H by (left; reflexivity). unfold rbind. rewrite IH; [reflexivity|]. intros x more X. apply H. right. exact X.
Qed.
Lemma read_section_ok : forall t n body rest, 0 <= t < 256 ^ 4 -> n = Z.of_nat (length body) -> n < 256 ^ 8 ->
  read_section (le 4 t ++ le 8 n ++ body ++ rest) = Some ((t, body), rest).
Proof.
  intros t n body rest Ht Hn Hb. unfold read_section, rbind. rewrite (read_le_app 4) by exact Ht. rewrite (read_le_app 8) by (change (Z.of_nat 8) with 8; lia).
  subst n. unfold read_size. rewrite app_length. destruct (Z.ltb_spec (Z.of_nat (length body + length rest)) (Z.of_nat (length body))); [lia|]. rewrite Nat2Z.id, read_exact_app by reflexivity. reflexivity.
Qed.
Lemma list_eqb_refl : forall l, list_eqb l l = true.
Proof. induction l as [|x l IH]; cbn; [reflexivity|]. rewrite Z.eqb_refl. exact IH. Qed.
Lemma read_container_ok : forall magic version n rest, length magic = 4%nat -> 0 <= version < 256 ^ 4 -> 0 <= n < 256 ^ 4 ->
  read_container magic version (magic ++ le 4 version ++ le 4 n ++ rest) = read_many (Z.to_nat n) read_section rest.
Proof.
  intros magic version n rest Hm Hv Hn. unfold read_container, rbind. rewrite (read_exact_app 4) by exact Hm. rewrite (read_le_app 4) by exact Hv.
  rewrite list_eqb_refl, Z.eqb_refl. cbn [andb]. rewrite (read_le_app 4) by exact Hn. reflexivity.
Qed.

Section RoundTrip.
Context {PF : PrimeField}.
Definition zlc_of (l : list (nat * F)) : zlc := map (fun t => (Z.of_nat (fst t), fval (snd t))) l.
Definition zrow_of (r : row) : zlc * zlc * zlc := match r with (a, b, c) => (zlc_of a, zlc_of b, zlc_of c) end.
Definition lc_small (l : list (nat * F)) : Prop := Z.of_nat (length l) < 2 ^ 32 /\ Forall (fun t => Z.of_nat (fst t) < 2 ^ 32) l.
Definition row_small (r : row) : Prop := match r with (a, b, c) => lc_small a /\ lc_small b /\ lc_small c end.
Lemma u32 : 256 ^ Z.of_nat 4 = 2 ^ 32. Proof. reflexivity. Qed.
Lemma read_lc_ok : forall n8 l rest, n8 = 32%nat -> (forall x : F, fval x < 256 ^ 32) -> lc_small l -> read_lc n8 (write_lincomb l ++ rest) = Some (zlc_of l, rest).
Proof.
  intros n8 l rest -> Hx [H1 H2]. unfold read_lc, write_lincomb. rewrite <- app_assoc. unfold rbind at 1. rewrite (read_le_app 4) by (rewrite u32; lia). rewrite Nat2Z.id.
  apply read_many_ok. intros t more Ht. rewrite Forall_forall in H2. specialize (H2 _ Ht). rewrite summand_le, <- app_assoc. unfold rbind.
  rewrite (read_le_app 4) by (rewrite u32; lia). rewrite (read_le_app 32); [reflexivity|]. pose proof (fval_range (snd t)). specialize (Hx (snd t)). change (Z.of_nat 32) with 32. lia.
Qed.
Lemma read_row_ok : forall r rest, (forall x : F, fval x < 256 ^ 32) -> row_small r -> read_row 32 (write_row r ++ rest) = Some (zrow_of r, rest).
Proof.
  intros [[a b] c] rest Hx [Ha [Hb Hc]]. unfold read_row, write_row, rbind. rewrite <- !app_assoc. rewrite !read_lc_ok by (assumption || reflexivity). reflexivity.
Qed.
Lemma all_of_ok : forall A (r : reader A) bs a, r (bs ++ []) = Some (a, []) -> all_of r bs = Some a.
Proof. intros A r bs a H. unfold all_of. rewrite app_nil_r in H. rewrite H. reflexivity. Qed.
Definition r1cs_header_of (p : prog) (vs : list var) (rows : list row) : r1cs_header :=
  mkR1csHeader (Z.of_nat mbc) pp (Z.of_nat (length vs)) (Z.of_nat (pret p)) (Z.of_nat (length (filter (fun a => negb (pprivate a)) (pargs p))))
    (Z.of_nat (length (filter pprivate (pargs p)))) (Z.of_nat (length vs)) (Z.of_nat (length rows)).
Definition prog_small (p : prog) (vs : list var) (rows : list row) : Prop :=
  Z.of_nat (length vs) < 2 ^ 32 /\ Z.of_nat (pret p) < 2 ^ 32 /\ Z.of_nat (length (pargs p)) < 2 ^ 32 /\ Z.of_nat (length rows) < 2 ^ 32 /\ Forall row_small rows /\ rows_size rows < 2 ^ 64.
Lemma filter_len : forall A (f : A -> bool) l, (length (filter f l) <= length l)%nat.
Proof. induction l as [|x l IH]; cbn; [lia|]. destruct (f x); cbn; lia. Qed.
Lemma read_header_ok : forall p vs rows, prog_small p vs rows -> Z.of_nat mbc < 2 ^ 32 -> all_of read_r1cs_header (header_bytes p vs rows) = Some (r1cs_header_of p vs rows).
Proof.
  intros p vs rows [H1 [H2 [H3 [H4 _]]]] Hm. apply all_of_ok. unfold read_r1cs_header, header_bytes. rewrite <- !app_assoc, pp_bytes. unfold rbind.
  pose proof (filter_len _ (fun a => negb (pprivate a)) (pargs p)). pose proof (filter_len _ pprivate (pargs p)).
  rewrite (read_le_app 4) by (rewrite u32; lia). rewrite Nat2Z.id. rewrite read_le_app by apply pp_fits. rewrite !(read_le_app 4) by (rewrite u32; lia).
  rewrite (read_le_app 8) by (change (256 ^ Z.of_nat 8) with (2 ^ 64); lia). rewrite (read_le_app 4) by (rewrite u32; lia). reflexivity.
Qed.
Lemma write_r1cs_parse : forall p vs k rows, mbc = 32%nat -> r1cs_program p = Some (vs, k, rows) -> prog_small p vs rows ->
  exists bs, write_r1cs p = Some bs /\ parse_r1cs bs = Some (r1cs_header_of p vs rows, map zrow_of rows, map Z.of_nat (seq 0 (length vs))).
Proof.
  intros p vs k rows Hm E Hs. unfold write_r1cs. rewrite E. eexists. split; [reflexivity|]. pose proof Hs as [H1 [H2 [H3 [H4 [H5 H6]]]]].
  assert (Hx : forall x : F, fval x < 256 ^ 32) by (intros x; pose proof (val_fits x) as K; rewrite Hm in K; change (Z.of_nat 32) with 32 in K; lia).
  assert (Hr : 0 <= rows_size rows) by (rewrite <- rows_length by exact Hm; lia).
  unfold parse_r1cs.
  erewrite (all_of_ok _ (read_container [114; 49; 99; 115] 1)).
  2:{ rewrite <- !app_assoc. rewrite read_container_ok; [|reflexivity|lia|lia]. change (Z.to_nat 3) with 3%nat. cbn [read_many].
      unfold rbind at 1. rewrite read_section_ok; [|lia|rewrite rows_length by exact Hm; reflexivity|change (256 ^ 8) with (2 ^ 64); lia].
      unfold rbind at 1 2. rewrite read_section_ok; [|lia|rewrite header_length, Hm; reflexivity|lia].
      unfold rbind at 1 2 3. rewrite read_section_ok; [|lia|rewrite table_length; reflexivity|change (256 ^ 8) with (2 ^ 64); lia]. reflexivity. }
  cbn [find_section Z.eqb Pos.eqb]. rewrite read_header_ok by (exact Hs || (rewrite Hm; reflexivity)). cbn [r1cs_header_of h_rows h_n8 h_labels]. rewrite !Nat2Z.id, Hm.
  erewrite (all_of_ok _ (read_many (length rows) _)); [|apply (read_many_ok _ _ (read_row 32) write_row zrow_of); intros r more R; apply read_row_ok; [exact Hx|rewrite Forall_forall in H5; apply H5; exact R]].
  erewrite (all_of_ok _ (read_many (length vs) _)).
  2:{ unfold table_bytes. rewrite <- (seq_length (length vs) 0) at 1. apply (read_many_ok _ _ (read_le 8) (fun i => le 8 (Z.of_nat i)) Z.of_nat). intros i more Hi. apply in_seq in Hi. apply read_le_app. change (256 ^ Z.of_nat 8) with (2 ^ 64). lia. }
  reflexivity.
Qed.
Lemma sdel_length : forall (w : smap F) v x, sget v w = Some x -> length w = Datatypes.S (length (sdel v w)).
Proof. induction w as [|[k y] w IH]; intros v x H; cbn in *; [discriminate H|]. destruct (v =? k); [reflexivity|]. cbn [length]. f_equal. eapply IH. exact H. Qed.
Lemma take_length : forall vs w t w', take vs w = Some (t, w') -> length w = (length t + length w')%nat.
Proof.
  induction vs as [|v vs IH]; intros w t w' H; cbn [take] in H; [injection H as <- <-; reflexivity|].
  destruct (sget v w) as [x|] eqn:G; [|discriminate H]. destruct (take vs (sdel v w)) as [[t1 w1]|] eqn:T; [|discriminate H]. injection H as <- <-.
  rewrite (sdel_length _ _ _ G), (IH _ _ _ T). reflexivity.
Qed.
Lemma entries_length : forall pi w e, witness_entries pi w = Some e -> length e = length w.
Proof.
  intros pi w e H. unfold witness_entries in H. destruct (sget vone w) as [x|] eqn:G.
  - destruct (take _ (sdel vone w)) as [[e2 w2]|] eqn:T2 in H; [|discriminate H]. destruct (take (set_of pi) w2) as [[e3 w3]|] eqn:T3; [|discriminate H]. injection H as <-.
    pose proof (sdel_length _ _ _ G). pose proof (take_length _ _ _ _ T2). pose proof (take_length _ _ _ _ T3). cbn [app length]. rewrite !app_length. unfold smap, var in *. lia.
  - destruct (take _ w) as [[e2 w2]|] eqn:T2 in H; [|discriminate H]. destruct (take (set_of pi) w2) as [[e3 w3]|] eqn:T3; [|discriminate H]. injection H as <-.
    pose proof (take_length _ _ _ _ T2). pose proof (take_length _ _ _ _ T3). cbn [app length]. rewrite !app_length. unfold smap, var in *. lia.
Qed.
Lemma write_witness_parse : forall pi w e, witness_entries pi w = Some e -> Z.of_nat (length w) < 2 ^ 32 -> Z.of_nat mbc < 2 ^ 31 ->
  exists bs, write_witness pi w = Some bs /\ parse_wtns bs = Some (Z.of_nat mbc, pp, map (fun t => fval (snd t)) e).
Proof.
  intros pi w e E Hw Hm. unfold write_witness. rewrite E. eexists. split; [reflexivity|]. pose proof (entries_length _ _ _ E) as L. rewrite Z.mod_small by lia.
  assert (Lb : Z.of_nat (length (flat_map (fun t : var * F => write_val (snd t)) e)) = Z.of_nat (length w) * Z.of_nat mbc).
  { rewrite <- L. clear. induction e as [|t e IH]; [reflexivity|]. cbn [flat_map length]. rewrite app_length, val_length. lia. }
  unfold parse_wtns.
  erewrite (all_of_ok _ (read_container [119; 116; 110; 115] 2)).
  2:{ replace (le 4 (Z.of_nat mbc) ++ to_bytes_le pp ++ le 4 (Z.of_nat (length w)) ++ le 4 2 ++ le 8 (Z.of_nat (length w) * Z.of_nat mbc) ++ flat_map (fun t : var * F => write_val (snd t)) e)
        with ((le 4 (Z.of_nat mbc) ++ to_bytes_le pp ++ le 4 (Z.of_nat (length w))) ++ le 4 2 ++ le 8 (Z.of_nat (length w) * Z.of_nat mbc) ++ flat_map (fun t : var * F => write_val (snd t)) e) by (rewrite <- !app_assoc; reflexivity).
      remember (le 4 (Z.of_nat mbc) ++ to_bytes_le pp ++ le 4 (Z.of_nat (length w))) as hb eqn:Eh.
      assert (Lh : 8 + Z.of_nat mbc = Z.of_nat (length hb)) by (rewrite Eh, pp_bytes, !app_length, !le_length; lia).
      rewrite <- !app_assoc. rewrite read_container_ok; [|reflexivity|lia|lia]. change (Z.to_nat 2) with 2%nat. cbn [read_many].
      unfold rbind at 1. rewrite read_section_ok; [|lia|exact Lh|lia].
      unfold rbind at 1 2. rewrite read_section_ok; [|lia|rewrite Lb; reflexivity|assert (K : Z.of_nat (length w) * Z.of_nat mbc <= 2 ^ 32 * 2 ^ 31) by (apply Z.mul_le_mono_nonneg; lia); change (256 ^ 8) with (2 ^ 64); lia]. rewrite Eh. reflexivity. }
  cbn [find_section Z.eqb Pos.eqb].
  erewrite (all_of_ok _ (rbind (read_le 4) _)).
  2:{ rewrite <- !app_assoc, pp_bytes. unfold rbind. rewrite (read_le_app 4) by (rewrite u32; lia). rewrite Nat2Z.id. rewrite read_le_app by apply pp_fits. rewrite (read_le_app 4) by (rewrite u32; lia). reflexivity. }
  cbv beta iota. rewrite !Nat2Z.id. rewrite <- L.
  erewrite (all_of_ok _ (read_many (length e) _)); [reflexivity|]. apply (read_many_ok _ _ (read_le mbc) (fun t : var * F => write_val (snd t)) (fun t => fval (snd t))). intros t more _. rewrite val_le. apply read_le_app. apply val_fits.
Qed.
End RoundTrip.
