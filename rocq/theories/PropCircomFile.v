(** C43: the layout of the circom r1cs and wtns files. *)
From Coq Require Import ZArith List Bool Lia.
From Verif Require Import PField SMap Concrete IR IRSpec Wf Interp InterpProofs Primality Fields Backend OutOrder PropBackend Circom PropCircom Bytes ProgIO CircomFile.
Import ListNotations.
Open Scope Z_scope.

(** The byte sizes of the six moduli (zokrates_field/src/*.rs): the BW6-761 scalar field has 48 bytes, the others 32. *)
Theorem C43_field_sizes : forall (PF : PrimeField) c, pp = modulus c -> mbc = match c with Bw6_761 => 48%nat | _ => 32%nat end.
Proof. intros PF c E. unfold mbc. rewrite E. destruct c; vm_compute; reflexivity. Qed.
(** The constraints of a parsed file, over the integers modulo the prime of its header, for values of the wires. *)
Fixpoint zeval (x : nat -> Z) (l : zlc) : Z := match l with [] => 0 | (n, c) :: r => c * x (Z.to_nat n) + zeval x r end.
Definition zrow_sat (m : Z) (x : nat -> Z) (r : zlc * zlc * zlc) : Prop := match r with (a, b, c) => (zeval x a * zeval x b) mod m = zeval x c mod m end.

(** Over every 32-byte field, the file parses as the r1cs format prescribes: the header says the prime, the numbers of wires, outputs,
    public and private inputs; the rows are those of the table (C35_r1cs_meaning), coefficient by coefficient. *)
Theorem C43_r1cs_file_partial : forall (PF : PrimeField) p vs k rows, mbc = 32%nat -> r1cs_program p = Some (vs, k, rows) -> prog_small p vs rows ->
  exists bs h zrows, write_r1cs p = Some bs /\ parse_r1cs bs = Some (h, zrows, map Z.of_nat (seq 0 (length vs))) /\
    h = mkR1csHeader 32 pp (Z.of_nat (length vs)) (Z.of_nat (pret p)) (Z.of_nat (length (public_inputs p))) (Z.of_nat (length (pargs p) - length (public_inputs p)))
          (Z.of_nat (length vs)) (Z.of_nat (length rows)) /\
    zrows = map (fun r : row => match r with (a, b, c) => (map (fun t => (Z.of_nat (fst t), fval (snd t))) a, map (fun t => (Z.of_nat (fst t), fval (snd t))) b, map (fun t => (Z.of_nat (fst t), fval (snd t))) c) end) rows.
Proof.
  intros PF p vs k rows Hm E Hs. destruct (write_r1cs_parse p vs k rows Hm E Hs) as [bs [H1 H2]]. exists bs, (r1cs_header_of p vs rows), (map zrow_of rows).
  split; [exact H1|]. split; [exact H2|]. split; [|reflexivity]. unfold r1cs_header_of, public_inputs. rewrite Hm, map_length. f_equal.
  clear. f_equal. induction (pargs p) as [|a l IH]; [reflexivity|]. cbn [filter length]. pose proof (filter_len _ (fun a => negb (pprivate a)) l). destruct (pprivate a); cbn [negb length]; lia.
Qed.
Lemma zeval_ok : forall (PF : PrimeField) (x : nat -> F) l, zeval (fun n => fval (x n)) (zlc_of l) mod pp = fval (reval x l).
Proof.
  intros PF x l. induction l as [|[n c] l IH]; cbn [zlc_of map zeval reval fst snd]; [symmetry; exact fval_f0|].
  unfold fadd, fmul. rewrite !fval_of_Z, Nat2Z.id. fold (zlc_of l). rewrite <- IH. rewrite <- Zplus_mod. reflexivity.
Qed.
(** So the constraints a reader of the file sees are those of the program. *)
Theorem C43_r1cs_meaning_partial : forall (PF : PrimeField) p vs k rows, mbc = 32%nat -> block_free p -> NoDup (vone :: map pid (pargs p)) -> Forall inner (map pid (pargs p)) ->
  r1cs_program p = Some (vs, k, rows) -> prog_small p vs rows ->
  exists bs h zrows labels, write_r1cs p = Some bs /\ parse_r1cs bs = Some (h, zrows, labels) /\
    forall w : env, Forall (zrow_sat (h_prime h) (fun n => match nth_error vs n with Some v => fval (w v) | None => 0 end)) zrows <-> sat w (flat_stmts (pstmts p)).
Proof.
  intros PF p vs k rows Hm B N Hi E Hs. destruct (C43_r1cs_file_partial PF p vs k rows Hm E Hs) as [bs [h [zr [H1 [H2 [H3 H4]]]]]].
  exists bs, h, zr, (map Z.of_nat (seq 0 (length vs))). split; [exact H1|]. split; [exact H2|]. intros w.
  destruct (C35_r1cs_meaning PF p B N Hi) as [rows' [E' [_ M]]]. rewrite E in E'. injection E' as -> _ ->.
  rewrite <- (M (fun n => match nth_error (wires p) n with Some v => w v | None => f0 end) w) by (intros n v X; rewrite X; reflexivity).
  change (zr = map zrow_of rows') in H4. subst zr h. cbn [h_prime]. rewrite Forall_map. rewrite !Forall_forall.
  assert (X : forall n, (match nth_error (wires p) n with Some v => fval (w v) | None => 0 end) = fval (match nth_error (wires p) n with Some v => w v | None => f0 end)) by (intros n; destruct (nth_error (wires p) n); [reflexivity|symmetry; apply fval_f0]).
  assert (Z : forall r, zrow_sat pp (fun n => match nth_error (wires p) n with Some v => fval (w v) | None => 0 end) (zrow_of r) <-> row_sat (fun n => match nth_error (wires p) n with Some v => w v | None => f0 end) r).
  { intros [[a b] c]. unfold zrow_sat, zrow_of, row_sat. set (x := fun n => match nth_error (wires p) n with Some v => w v | None => f0 end).
    assert (Y : forall l, zeval (fun n => match nth_error (wires p) n with Some v => fval (w v) | None => 0 end) (zlc_of l) = zeval (fun n => fval (x n)) (zlc_of l)).
    { induction l as [|[n t] l IH]; cbn [zlc_of map zeval fst snd]; [reflexivity|]. fold (zlc_of l). rewrite IH, X. reflexivity. }
    rewrite !Y. rewrite Zmult_mod, !zeval_ok. change ((fval (reval x a) * fval (reval x b)) mod pp) with (fval (fmul (reval x a) (reval x b))). split; [apply F_ext|intros ->; reflexivity]. }
  split; intros H r R; apply Z; apply H; exact R.
Qed.

(** The witness file, over every field: the header and each value have the size the format prescribes, and the values are the entries
    (C35_public_part, C35_agreement_iff say which). *)
Theorem C43_witness_file : forall (PF : PrimeField) pi (w : smap F) e, witness_entries pi w = Some e -> Z.of_nat (length w) < 2 ^ 32 -> pp < 2 ^ 1024 ->
  exists bs n8, write_witness pi w = Some bs /\ pp < 256 ^ n8 /\ parse_wtns bs = Some (n8, pp, map (fun t => fval (snd t)) e).
Proof.
  intros PF pi w e E Hw Hp. destruct (write_witness_parse pi w e E Hw) as [bs [H1 H2]].
  - unfold mbc, to_bytes_le. rewrite le_length. pose proof pp_gt1. assert (L : Z.log2 pp < 1024) by (apply Z.log2_lt_pow2; [lia|exact Hp]). clear Hp.
    rewrite Z2Nat.id by (pose proof (byte_log pp); lia). pose proof (Z.div_lt_upper_bound (Z.log2 pp) 8 (2 ^ 30)). lia.
  - exists bs, (Z.of_nat mbc). split; [exact H1|]. split; [apply pp_fits|exact H2].
Qed.
Print Assumptions C43_r1cs_meaning_partial.
Print Assumptions C43_witness_file.

(** A concrete case: x * x = ~out_0 over BN254. *)
Definition sq_prog (PF : PrimeField) (c : Z) : prog := mkProg [mkParam 1 false] 1 [Single (Constraint (mkQ [(1, of_Z c)] [(vone, f1)]) [(vpub 0, f1)] None)].
Example C43_case : exists rows, r1cs_program (sq_prog bn254 5) = Some ([vone; vpub 0; 1], 3%nat, rows) /\ prog_small (sq_prog bn254 5) [vone; vpub 0; 1] rows.
Proof.
  exists [([(2%nat, of_Z 5)], [(0%nat, f1)], [(1%nat, f1)])]. split; [reflexivity|].
  assert (L : forall n (c : @F bn254), (n < 3)%nat -> lc_small [(n, c)]) by (intros n c H; split; [cbn [length]; lia|constructor; [cbn [fst]; lia|constructor]]).
  split; [cbn [length]; lia|]. split; [cbn [sq_prog pret]; lia|]. split; [cbn [sq_prog pargs length]; lia|]. split; [cbn [length]; lia|]. split; [|vm_compute; reflexivity].
  constructor; [|constructor]. split; [apply L; lia|]. split; apply L; lia.
Qed.

(** REFUTED for Bw6_761: the header section is declared 64 bytes long and is 80, so the file does not parse; the coefficients are cut to their
    32 lowest bytes, so different programs give the same file. *)
Theorem C43_bw6_761_refuted : exists p1 p2 bs, write_r1cs p1 = Some bs /\ @write_r1cs bw6_761 p2 = Some bs /\ parse_r1cs bs = None /\
  exists w : @env bw6_761, w vone = f1 /\ sat w (flat_stmts (pstmts p1)) /\ ~ sat w (flat_stmts (pstmts p2)).
Proof.
  exists (sq_prog bw6_761 1), (sq_prog bw6_761 (1 + 2 ^ 256)). eexists. split; [vm_compute; reflexivity|]. split; [vm_compute; reflexivity|]. split; [vm_compute; reflexivity|].
  exists (fun _ => f1). split; [reflexivity|]. split.
  - constructor; [|constructor]. apply F_ext. vm_compute. reflexivity.
  - intros H. inversion H as [|? ? K _]; subst. cbn [sat_stmt] in K. apply (f_equal fval) in K. vm_compute in K. discriminate K.
Qed.
Print Assumptions C43_bw6_761_refuted.
(** In general: the declared size of the header section is its length exactly for the 32-byte fields. *)
Theorem C43_header_size_iff : forall (PF : PrimeField) p vs rows, Z.of_nat (length (header_bytes p vs rows)) = 32 + 32 <-> mbc = 32%nat.
Proof. intros PF p vs rows. rewrite header_length. lia. Qed.
