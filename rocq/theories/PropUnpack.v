(** C56: unpacking a field element to as many bits as the field has (zokrates_stdlib/stdlib/utils/pack/bool/unpack.zok).
    The standard library's unpack compares the bits to those of p - 1; then they are the binary representation of the element, and no
    other assignment satisfies the constraints. Without the comparison (unpack_unchecked, nonStrictUnpack256) they are not determined. *)
From Coq Require Import String Ascii.
From Coq Require Import ZArith NArith List Bool Lia Permutation.
From Verif Require Import Typed Writes Src SrcTy TProp TPropOk TPropProg PropTProp Reduce ReduceRen Lower PropReduce ReduceOnce.
From Verif Require Import PField SMap Concrete IR IRSpec Wf InterpProofs Interp Bits Optimizer OptimizerProofs OptPipeline OptExtra Flat Zir Codegen CgBase CgExpr CgEmit CgProg CgEnd CgCheck PropIR Primality CgExamples PropCodegen UintOpt Panic DeadCode NoFail PropCompile Source PropSource PropChecked ZProp ZPropStmt PropFold UintCheck PropUint
  Str Abi Typed Flatten FlattenOps FlattenSim FlattenRun FlattenEnd Enforce PropTyped Writes Redefine WritesVal WritesExp WritesChoose WritesRun WritesEnd WritesWf Bounds PropWrites PropWEnd NoUint PropSrcEnd PropNoUint.
Import ListNotations.
Open Scope Z_scope.

(** ** The constraints of the checked unpack, over every prime field *)
Section Strict.
Context {PF : PrimeField}.
Notation N := required_bits.
(** def main(private field x) -> bool[N] { bool[N] res = unpack_unchecked(x); assert(bit_array_le(res, unpack_unchecked(-1))); return res; }
    after inlining and constant propagation; N is the number of bits of the field (get_required_bits). *)
Definition bit_vars : list ident := map Z.of_nat (seq 1 N).
Definition le_var : ident := Z.of_nat (S N).
Definition strict_unpack : zprog :=
  mkZProg [mkZParam 0 PF_ true]
    [ZEmbed bit_vars (EUnpack N) [ZId KF 0];
     ZEmbed [le_var] (EBitLe N) (map (ZId KB) bit_vars ++ map ZBVal (bits_be N (pp - 1)));
     ZAssert (ZId KB le_var) 0;
     ZReturn (map (ZId KB) bit_vars)] N.

Lemma bit_vars_length : length bit_vars = N.
Proof. unfold bit_vars. rewrite map_length, seq_length. reflexivity. Qed.
Lemma bit_vars_in : forall x, In x bit_vars -> 0 < x < le_var.
Proof. intros x H. unfold bit_vars in H. apply in_map_iff in H as [i [<- H]]. apply in_seq in H. unfold le_var. lia. Qed.
Lemma seq_nodup : forall n i, NoDup (map Z.of_nat (seq i n)).
Proof. induction n as [|n IH]; intros i; cbn [seq map]; constructor; [|apply IH]. intros H. apply in_map_iff in H as [j [E H]]. apply in_seq in H. lia. Qed.
Lemma nodup_uniq : forall xs, NoDup xs -> uniqb xs = true.
Proof.
  induction xs as [|x xs IH]; intros H; [reflexivity|]. inversion H as [|? ? H1 H2]; subst. change (negb (memb x xs) && uniqb xs = true). rewrite (IH H2), andb_true_r. apply negb_true_iff. destruct (memb x xs) eqn:E; [|reflexivity].
  exfalso. apply H1. unfold memb in E. apply existsb_exists in E as [y [I E]]. apply Z.eqb_eq in E. subst y. exact I.
Qed.
Lemma sem_ids : forall xs bs rho, NoDup xs -> length xs = length bs -> sem_list (upds_s rho xs (map VB bs)) (map (ZId KB) xs) = Some (map VB bs).
Proof.
  induction xs as [|x xs IH]; intros [|b bs] rho H L; try discriminate L; [reflexivity|]. inversion H as [|? ? H1 H2]; subst. injection L as L. cbn [map upds_s]. pose proof (IH bs (upd_s rho x (VB b)) H2 L) as E. unfold sem_list in *. cbn [map opt_list sem]. rewrite E.
  rewrite (CgProg.upds_s_other xs (map VB bs) _ x H1). unfold upd_s. rewrite Z.eqb_refl. reflexivity.
Qed.
Lemma sem_consts : forall rho bs, sem_list rho (map ZBVal bs) = Some (map VB bs).
Proof. intros rho. induction bs as [|b bs IH]; [reflexivity|]. unfold sem_list in *. cbn [map opt_list sem]. rewrite IH. reflexivity. Qed.
Lemma sem_list_app : forall rho a b va vb, sem_list rho a = Some va -> sem_list rho b = Some vb -> sem_list rho (a ++ b) = Some (va ++ vb).
Proof.
  intros rho. induction a as [|e a IH]; intros b va vb Ha Hb; unfold sem_list in *; [injection Ha as <-; exact Hb|]. cbn [map opt_list app] in *. destruct (sem rho e) as [v|]; [|discriminate Ha]. destruct (opt_list (map (sem rho) a)) as [l|] eqn:E; [|discriminate Ha]. injection Ha as <-. rewrite (IH b l vb eq_refl Hb). reflexivity.
Qed.
Lemma bools_of_map : forall bs, bools_of (map VB bs) = Some bs.
Proof. induction bs as [|b bs IH]; [reflexivity|]. unfold bools_of in *. cbn [map opt_list]. rewrite IH. reflexivity. Qed.
Lemma bits_le_max : forall x : F, fval x <= pp - 1.
Proof. intros x. pose proof (fval_range x). lia. Qed.
Lemma sem_strict : forall x : F, sem_prog strict_unpack [x] = Some (map f_of_bool (bits_be N (fval x)), []).
Proof.
  intros x. pose proof (fval_range x) as R. pose proof required_bits_bounds as [_ B]. unfold pow2 in B. set (bs := bits_be N (fval x)). assert (Lb : length bs = N) by (apply Bits.bits_be_length).
  unfold sem_prog, strict_unpack. cbn [zargs zbody zret bind_params val_of_input zptype zpid].
  set (rho := upd_s (fun _ => None) 0 (VF x)).
  assert (S1 : sem_stmt (mkOuts rho [] []) (ZEmbed bit_vars (EUnpack N) [ZId KF 0]) = Some (mkOuts (upds_s rho bit_vars (map VB bs)) [] [])).
  { cbn [sem_stmt os_env]. unfold sem_list. cbn [map opt_list sem]. unfold rho at 1. unfold upd_s. rewrite Z.eqb_refl. cbn [sem_embed]. destruct (Z.ltb_spec (fval x) (2 ^ Z.of_nat N)) as [_|K]; [|lia]. fold bs. rewrite map_length, Lb, bit_vars_length, Nat.eqb_refl. reflexivity. }
  cbn [sem_stmts]. rewrite S1. clear S1. set (rho1 := upds_s rho bit_vars (map VB bs)).
  assert (S2 : forall r l, sem_list (mkOuts rho1 r l).(os_env) (map (ZId KB) bit_vars) = Some (map VB bs)).
  { intros r l. apply sem_ids; [apply seq_nodup|rewrite bit_vars_length; symmetry; exact Lb]. }
  assert (S3 : sem_stmt (mkOuts rho1 [] []) (ZEmbed [le_var] (EBitLe N) (map (ZId KB) bit_vars ++ map ZBVal (bits_be N (pp - 1)))) = Some (mkOuts (upd_s rho1 le_var (VB true)) [] [])).
  { cbn [sem_stmt]. rewrite (sem_list_app _ _ _ _ _ (S2 [] []) (sem_consts _ _)). cbn [sem_embed]. rewrite <- map_app, bools_of_map. rewrite app_length, Lb, Bits.bits_be_length. replace (Nat.eqb (N + N) (2 * N)) with true by (symmetry; apply Nat.eqb_eq; lia).
    assert (F1 : firstn N (bs ++ bits_be N (pp - 1)) = bs). { rewrite firstn_app, Lb, Nat.sub_diag. cbn [firstn]. rewrite app_nil_r, <- Lb, firstn_all. reflexivity. }
    assert (F2 : skipn N (bs ++ bits_be N (pp - 1)) = bits_be N (pp - 1)). { rewrite skipn_app, Lb, Nat.sub_diag. cbn [skipn]. rewrite <- Lb, skipn_all. reflexivity. }
    rewrite F1, F2. unfold bs. rewrite !bv_bits_be. rewrite !Z.mod_small by (unfold pow2; lia). destruct (Z.leb_spec (fval x) (pp - 1)) as [_|K]; [|lia]. cbn [length Nat.eqb upds_s os_env os_ret os_log]. reflexivity. }
  rewrite S3. clear S3. cbn [sem_stmt sem os_env]. unfold upd_s at 1. rewrite Z.eqb_refl. cbn [os_env os_ret os_log].
  assert (S4 : sem_list (upd_s rho1 le_var (VB true)) (map (ZId KB) bit_vars) = Some (map VB bs)).
  { rewrite <- (S2 [] []). unfold sem_list. f_equal. apply map_ext_in. intros e I. apply in_map_iff in I as [y [<- I]]. cbn [sem os_env]. unfold upd_s. destruct (Z.eqb_spec y le_var) as [->|_]; [|reflexivity]. apply bit_vars_in in I. lia. }
  unfold sem_list in S4. unfold sem_list. rewrite S4. cbn [os_ret os_log app]. rewrite map_map. reflexivity.
Qed.
Lemma tupds_kb : forall xs G x n, In x xs -> length xs = n -> tupds G xs (repeat KB n) x = Some KB.
Proof.
  assert (O : forall xs ks G x, ~ In x xs -> tupds G xs ks x = G x).
  { induction xs as [|y xs IH]; intros [|k ks] G x H; try reflexivity. cbn [tupds]. rewrite IH by (intros I; apply H; right; exact I). unfold CgProg.tupd. destruct (Z.eqb_spec x y) as [->|_]; [|reflexivity]. exfalso. apply H. left. reflexivity. }
  induction xs as [|y xs IH]; intros G x n I L; [destruct I|]. subst n. cbn [length repeat tupds]. destruct (in_dec Z.eq_dec x xs) as [J|J]; [exact (IH _ x _ J eq_refl)|]. destruct I as [->|I]; [|destruct (J I)]. rewrite O by exact J. unfold CgProg.tupd. rewrite Z.eqb_refl. reflexivity.
Qed.
Lemma wt_bits : forall G, Forall (out_ok (tupds G bit_vars (repeat KB N))) (map (ZId KB) bit_vars).
Proof. intros G. apply Forall_forall. intros e I. apply in_map_iff in I as [x [<- I]]. split; [|exact Logic.I]. split; [exact Logic.I|]. exists KB. split; [exact (tupds_kb _ _ _ _ I bit_vars_length)|reflexivity]. Qed.
Lemma kinds_ids : forall xs n, length xs = n -> map zkind (map (ZId KB) xs) = repeat KB n.
Proof. induction xs as [|x xs IH]; intros n <-; [reflexivity|]. cbn [map length repeat zkind]. rewrite (IH _ eq_refl). reflexivity. Qed.
Lemma kinds_consts : forall bs n, length bs = n -> map zkind (map ZBVal bs) = repeat KB n.
Proof. induction bs as [|x xs IH]; intros n <-; [reflexivity|]. cbn [map length repeat zkind]. rewrite (IH _ eq_refl). reflexivity. Qed.
Lemma strict_wtp : wtp strict_unpack.
Proof.
  split; [repeat constructor|]. split.
  - cbn [strict_unpack zargs zbody wtss wts tpost ptenv fold_left zpid zptype pkind]. split.
    + split; [constructor; [|constructor]; split; [split; [exact Logic.I|]; exists KF; split; reflexivity|exact Logic.I]|]. split; [split; [apply Nat.le_refl|reflexivity]|]. split; [|exact Logic.I]. cbn [embed_kinds]. rewrite repeat_length. exact bit_vars_length.
    + cbn [embed_kinds]. split.
      * split; [apply Forall_app; split; [apply wt_bits|]|].
        { apply Forall_forall. intros e I. apply in_map_iff in I as [x [<- I]]. split; exact Logic.I. }
        split; [|split; [reflexivity|exact Logic.I]]. split; [apply Nat.le_refl|]. rewrite map_app, (kinds_ids _ _ bit_vars_length), (kinds_consts _ N (Bits.bits_be_length _ _)), <- repeat_app. f_equal. lia.
      * split; [split; [|reflexivity]; split; [exact Logic.I|]; exists KB; split; [|reflexivity]; cbn [tupds]; unfold CgProg.tupd; rewrite Z.eqb_refl; reflexivity|]. split; [|exact Logic.I].
        apply Forall_forall. intros e I. apply in_map_iff in I as [x [<- I]]. split; [|exact Logic.I]. split; [exact Logic.I|]. exists KB. split; [|reflexivity]. cbn [tupds]. unfold CgProg.tupd. destruct (Z.eqb_spec x le_var) as [_|_]; [reflexivity|]. exact (tupds_kb _ _ _ _ I bit_vars_length).
  - exists (firstn 3 (zbody strict_unpack)), (map (ZId KB) bit_vars). split; [reflexivity|]. rewrite map_length. exact bit_vars_length.
Qed.
Lemma strict_ends : ends_return strict_unpack.
Proof. exists (firstn 3 (zbody strict_unpack)), (map (ZId KB) bit_vars). split; [reflexivity|]. split; [rewrite map_length; exact bit_vars_length|]. repeat constructor. Qed.
Lemma ix_from_ok : forall xs n i, NoDup xs -> length xs = n -> ix_from i (map (arg_ix (combine xs (seq i n))) (map (ZId KB) xs)) = true.
Proof.
  induction xs as [|x xs IH]; intros n i H <-; [reflexivity|]. inversion H as [|? ? H1 H2]; subst. cbn [length seq combine map arg_ix bit_ix ix_from]. rewrite Z.eqb_refl, Nat.eqb_refl. rewrite andb_true_l. etransitivity; [|exact (IH _ (S i) H2 eq_refl)]. f_equal. rewrite !map_map. apply map_ext_in. intros y I. cbn [arg_ix bit_ix]. destruct (Z.eqb_spec y x) as [->|_]; [destruct (H1 I)|reflexivity].
Qed.
Lemma opt_bits : forall bs, opt_list (map arg_bit (map ZBVal bs)) = Some bs.
Proof. induction bs as [|b bs IH]; [reflexivity|]. cbn [map opt_list arg_bit]. rewrite IH. reflexivity. Qed.
Lemma strict_checked : unpacks_checked strict_unpack.
Proof.
  unfold unpacks_checked, strict_unpack. cbn [zbody stricts strict_s]. rewrite !andb_true_l, !andb_true_r. apply orb_true_iff. right. rewrite (nodup_uniq bit_vars (seq_nodup N 1)), andb_true_l.
  cbn [enforced]. rewrite Nat.eqb_refl, andb_true_l.
  assert (L : le_check_of N (combine bit_vars (seq 0 N)) (map (ZId KB) bit_vars ++ map ZBVal (bits_be N (pp - 1))) = true).
  { pose proof bit_vars_length as Lv. assert (Lm : length (map (ZId KB) bit_vars) = N) by (rewrite map_length; exact Lv). unfold le_check_of. rewrite app_length, !map_length, Lv, Bits.bits_be_length.
    assert (F1 : forall (l m : list zexp), length l = N -> firstn N (l ++ m) = l) by (intros l m <-; rewrite firstn_app, Nat.sub_diag; cbn [firstn]; rewrite app_nil_r; apply firstn_all).
    assert (F2 : forall (l m : list zexp), length l = N -> skipn N (l ++ m) = m) by (intros l m <-; rewrite skipn_app, Nat.sub_diag, skipn_all; reflexivity).
    rewrite (F1 _ _ Lm), (F2 _ _ Lm). rewrite (ix_from_ok bit_vars N 0 (seq_nodup _ _) Lv). rewrite opt_bits, bv_bits_be. replace (Nat.eqb (N + N) (2 * N)) with true by (symmetry; apply Nat.eqb_eq; lia). cbn [andb].
    pose proof required_bits_bounds as [_ B]. pose proof pp_gt1. rewrite Z.mod_small by lia. apply Z.leb_refl. }
  rewrite L. cbn [memb existsb]. rewrite Z.eqb_refl. reflexivity.
Qed.
Lemma strict_no_word : no_word strict_unpack = true.
Proof.
  unfold no_word, no_uint_k, strict_unpack. cbn [zargs zbody forallb zptype NoUint.fs fem fx orb andb]. rewrite forallb_app. 
  assert (A : forall xs, forallb fx (map (ZId KB) xs) = true) by (induction xs; [reflexivity|cbn [map forallb fx]; assumption]).
  assert (B : forall xs, forallb fx (map ZBVal xs) = true) by (induction xs; [reflexivity|cbn [map forallb fx]; assumption]).
  rewrite A, B. reflexivity.
Qed.
Lemma strict_safe : forall inputs, safe_prog strict_unpack inputs.
Proof.
  intros inputs rho _. unfold strict_unpack. cbn [zbody].
  assert (A : forall r xs, Forall (divs r) (map (ZId KB) xs)) by (intros r; induction xs; constructor; [exact Logic.I|assumption]).
  assert (B : forall r xs, Forall (divs r) (map ZBVal xs)) by (intros r; induction xs; constructor; [exact Logic.I|assumption]).
  cbn [CgProg.safe_stmts CgProg.safe_stmt]. split; [split; [repeat constructor|exact Logic.I]|]. intros o1 _. split; [split; [apply Forall_app; split; [apply A|apply B]|exact Logic.I]|]. intros o2 _. split; [exact Logic.I|]. intros o3 _. split; [apply A|]. intros o4 _. exact Logic.I.
Qed.
End Strict.

(** Every satisfying assignment outputs the binary representation of its input, most significant bit first, whatever the solvers do. *)
Theorem C56_strict_unpack_unique : forall (PF : PrimeField) c (a : env), (3 <= required_bits)%nat -> compile strict_unpack = Some c -> satisfies a c ->
  exists x, map (fun q => a (pid q)) (pargs c) = [x] /\ map (fun i => a (vpub i)) (seq 0 required_bits) = map f_of_bool (bits_be required_bits (fval x)).
Proof.
  intros PF c a Hr C Sa. pose proof (C41_compile_sound PF strict_unpack c a Hr strict_wtp strict_checked C (safe_no_word true strict_unpack strict_no_word) (strict_safe _) Sa) as H.
  destruct (C41_compiled_defined_before_use PF strict_unpack c strict_ends C) as [_ [_ [L _]]]. cbn [strict_unpack zargs length] in L. change (zret strict_unpack) with required_bits in H.
  destruct (pargs c) as [|q [|? ?]]; try discriminate L. cbn [map] in *. exists (a (pid q)). split; [reflexivity|]. rewrite sem_strict in H. injection H as H _. symmetry. exact H.
Qed.
Print Assumptions C56_strict_unpack_unique.
(** and computing the witness succeeds on every field element. *)
Theorem C56_strict_unpack_total : forall (PF : PrimeField) ext c (x : F), (3 <= required_bits)%nat -> compile strict_unpack = Some c ->
  exists w, exec_prog (exec_solver ext) (pargs c) (flat_stmts (pstmts c)) [x] = Done w [] /\ map (fun i => sget (vpub i) w) (seq 0 required_bits) = map Some (map f_of_bool (bits_be required_bits (fval x))).
Proof. intros PF ext c x Hr C. exact (C41_compile_complete PF ext strict_unpack c [x] _ _ Hr strict_wtp strict_ends C (cache_no_word true strict_unpack strict_no_word) (sem_strict x)). Qed.
Print Assumptions C56_strict_unpack_total.

(** ** Without the comparison
    nonStrictUnpack256 and unpack_unchecked (pack/bool/nonStrictUnpack256.zok, EMBED.zok), at the 254 bits of BN254's scalar field: the constraints
    accept the bits of 0 and the bits of p for the element 0. edwardsCompress and proofOfOwnership build on them. *)
Definition loose_unpack {PF : PrimeField} : zprog := mkZProg [mkZParam 0 PF_ true] [ZEmbed bit_vars (EUnpack required_bits) [ZId KF 0]; ZReturn (map (ZId KB) bit_vars)] required_bits.
Definition sat_b {PF : PrimeField} (w : env) (s : stmt) : bool := match s with Constraint q l _ => Feqb (eval_quad w q) (eval_lin w l) | _ => true end.
Lemma sat_b_ok : forall (PF : PrimeField) w ss, forallb (sat_b w) ss = true -> sat w ss.
Proof. intros PF w ss H. apply Forall_forall. intros s I. pose proof (proj1 (forallb_forall _ _) H s I) as E. destruct s as [q l e| |]; try exact Logic.I. cbn [sat_b sat_stmt] in *. destruct (Feqb_spec (eval_quad w q) (eval_lin w l)) as [Q|]; [exact Q|discriminate E]. Qed.
(** a prover that decomposes x + p instead of x *)
Definition cheat (s : solver) (xs : list (@F bn254)) : option (list (@F bn254)) :=
  match s, xs with SBits n, [x] => Some (map f_of_bool (bits_be n (fval x + @pp bn254))) | _, _ => exec_solver (fun _ _ => None) s xs end.
Definition cheated : option (bool * list Z * list Z) :=
  match compile (@loose_unpack bn254) with
  | Some c => match exec_prog cheat (pargs c) (flat_stmts (pstmts c)) [f0] with
              | Done w _ => Some (Feqb (env_of w vone) f1 && forallb (sat_b (env_of w)) (flat_stmts (pstmts c)), map (fun q => fval (env_of w (pid q))) (pargs c), map (fun i => fval (env_of w (vpub i))) (seq 0 (@required_bits bn254)))
              | _ => None
              end
  | None => None
  end.
Lemma cheated_ok : cheated = Some (true, [0], map Z.b2z (bits_be (@required_bits bn254) (@pp bn254))).
Proof. vm_compute. reflexivity. Qed.
Theorem C56_unchecked_unpack_refuted : exists c (a : @env bn254), compile (@loose_unpack bn254) = Some c /\ satisfies a c /\ map (fun q => fval (a (pid q))) (pargs c) = [0] /\
  map (fun i => fval (a (vpub i))) (seq 0 (@required_bits bn254)) = map Z.b2z (bits_be (@required_bits bn254) (@pp bn254)) /\
  sem_prog (@loose_unpack bn254) [f0] = Some (repeat f0 (@required_bits bn254), []).
Proof.
  pose proof cheated_ok as H. unfold cheated in H. destruct (compile (@loose_unpack bn254)) as [c|]; [|discriminate H]. destruct (exec_prog cheat (pargs c) (flat_stmts (pstmts c)) [f0]) as [w lg| | | |]; try discriminate H.
  apply (f_equal (fun o => match o with Some (b, i, o) => (b, i, o) | None => (false, [], []) end)) in H. cbv beta iota in H.
  pose proof (f_equal (fun t => fst (fst t)) H) as H1. pose proof (f_equal (fun t => snd (fst t)) H) as H2. pose proof (f_equal (fun t => snd t) H) as H3. cbn [fst snd] in H1, H2, H3. clear H.
  exists c, (env_of w). split; [reflexivity|]. apply andb_prop in H1 as [H0 H1]. split; [|split; [exact H2|split; [exact H3|]]].
  - split; [destruct (Feqb_spec (env_of w vone) f1) as [Q|]; [exact Q|discriminate H0]|]. apply sat_b_ok. exact H1.
  - vm_compute. reflexivity.
Qed.
Print Assumptions C56_unchecked_unpack_refuted.
Example C56_nonvacuous : (3 <= @required_bits bn254)%nat /\ exists c, compile (@strict_unpack bn254) = Some c.
Proof. split; [vm_compute; lia|]. destruct (compile (@strict_unpack bn254)) as [c|] eqn:E; [exists c; reflexivity|]. exfalso. assert (H : match compile (@strict_unpack bn254) with Some _ => true | None => false end = true) by (vm_compute; reflexivity). rewrite E in H. discriminate H. Qed.
