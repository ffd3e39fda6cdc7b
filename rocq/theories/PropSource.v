(** Property theorems: the last source-level passes (C38, C40) and compilation from the source program (C41).
    Reading guide. [extract_panics] (Panic.v), [eliminate] (DeadCode.v), [uint_optimize] (UintOpt.v): the three passes run before
    code generation; [analyse] (Source.v): their composition. [sem_prog] (Zir.v): source meaning. [safe_prog q inputs] (CgProg.v):
    when q runs on the inputs, each field division met has a non-zero divisor at that point. [scoped_prog]: what the first branch
    of an if statement defines is not read in its second branch. [no_pow0_prog]: no operand of a comparison is x ** 0 (constant
    propagation has replaced it). [no_cast_prog]: no cast from field to bool. [strict_prog]: definitions contain no select, no
    remainder and no comparison of two non-literal field elements, and call no unpack or cast. *)
From Coq Require Import ZArith NArith List Bool Lia.
From Verif Require Import PField SMap IR IRSpec Wf Interp Optimizer OptimizerProofs OptPipeline OptExtra Bits Flat FlatProofs Zir Codegen CgBase CgGadgets CgExpr CgStmt CgEmit CgProg CgWf CgEnd
  InterpProofs PropIR Concrete Primality CgExamples CgCheck PropCodegen PropCompile UintOpt UintOptProofs UintRaw UintCheck PropUint Panic DeadCode Source NoFail.
Import ListNotations.
Open Scope Z_scope.

(** C38: returned values and logs of successful runs are unchanged ... *)
Theorem C38_results : forall (PF : PrimeField) p inputs r, scoped_prog p -> sem_prog p inputs = Some r -> sem_prog (eliminate p) inputs = Some r.
Proof. intros PF. exact eliminate_sem. Qed.
Print Assumptions C38_results.
(** ... and so are failures, of strict programs whose panics have been extracted. *)
Theorem C38_failures_partial : forall (PF : PrimeField) p inputs, (3 <= required_bits)%nat -> sty_prog p -> scoped_prog p -> no_pow0_prog p -> strict_prog p ->
  sem_prog (eliminate (extract_panics p)) inputs = sem_prog p inputs.
Proof. intros PF. exact extract_eliminate_same. Qed.
Print Assumptions C38_failures_partial.

(** C40: after extraction no division by zero is reachable, and the meaning is the same, success or failure. *)
Theorem C40_divisions_guarded : forall (PF : PrimeField) p inputs, no_cast_prog p -> safe_prog (extract_panics p) inputs.
Proof. intros PF. exact extract_safe. Qed.
Print Assumptions C40_divisions_guarded.
Theorem C40_meaning : forall (PF : PrimeField) p inputs, (3 <= required_bits)%nat -> no_pow0_prog p -> sem_prog (extract_panics p) inputs = sem_prog p inputs.
Proof. intros PF. exact extract_sem. Qed.
Print Assumptions C40_meaning.
(** ... and elimination of dead code keeps every guard. *)
Theorem C40_guards_kept : forall (PF : PrimeField) p inputs, no_cast_prog p -> safe_prog (eliminate (extract_panics p)) inputs.
Proof. intros PF. exact eliminate_extract_safe. Qed.
Print Assumptions C40_guards_kept.

(** C41 from the source program. Any satisfying assignment of the compiled program carries the results of the source
    program on the inputs it contains, whenever that has results ... *)
Theorem C41_source_sound : forall (PF : PrimeField) p p' c (w : env), (3 <= required_bits)%nat -> sty_prog p -> scoped_prog p -> no_cast_prog p -> no_pow0_prog p ->
  analyse p = Some p' -> max_ok_prog p' -> compile p' = Some c -> unpacks_checked p' -> cache_safe p' -> satisfies w c ->
  forall r, sem_prog p (map (fun q => w (pid q)) (pargs c)) = Some r -> r = (map (fun i => w (vpub i)) (seq 0 (zret p)), logs_of w (flat_stmts (pstmts c))).
Proof. intros PF p p' c w H1 H2 H3 H4 H5 H6 H7 H8 Hu H9 H10. exact (proj2 (source_sound p p' c w H1 H2 H3 H4 H5 H6 H7 H8 Hu H9 H10)). Qed.
Print Assumptions C41_source_sound.
(** ... and, for strict programs, exists only if the source program succeeds. *)
Theorem C41_source_sound_strict : forall (PF : PrimeField) p p' c (w : env), (3 <= required_bits)%nat -> sty_prog p -> scoped_prog p -> no_cast_prog p -> no_pow0_prog p -> strict_prog p ->
  analyse p = Some p' -> max_ok_prog p' -> compile p' = Some c -> unpacks_checked p' -> cache_safe p' -> satisfies w c ->
  sem_prog p (map (fun q => w (pid q)) (pargs c)) = Some (map (fun i => w (vpub i)) (seq 0 (zret p)), logs_of w (flat_stmts (pstmts c))).
Proof.
  intros PF p p' c w H1 H2 H3 H4 H5 Hs H6 H7 H8 Hu H9 H10. destruct (source_sound p p' c w H1 H2 H3 H4 H5 H6 H7 H8 Hu H9 H10) as [[r A] B].
  rewrite extract_eliminate_same in A by auto. rewrite A. f_equal. apply B. exact A.
Qed.
Print Assumptions C41_source_sound_strict.
(** Analysis of a well-typed program does not panic, and successful source runs are executed. *)
Theorem C41_source_complete : forall (PF : PrimeField) ext p (inputs : list F) rets logs, (3 <= required_bits)%nat -> sty_prog p -> scoped_prog p -> ends_return p -> no_pow0_prog p ->
  sem_prog p inputs = Some (rets, logs) ->
  exists p', analyse p = Some p' /\ (max_ok_prog p' -> cache_clean p' -> forall c, compile p' = Some c ->
  exists w, exec_prog (exec_solver ext) (pargs c) (flat_stmts (pstmts c)) inputs = Done w logs /\
    map (fun i => sget (vpub i) w) (seq 0 (zret p)) = map Some rets).
Proof.
  intros PF ext p inputs rets logs H1 H2 H3 H4 H5 H6. destruct (analyse_ok p H2 H3) as [p' [A _]]. exists p'. split; [exact A|]. intros Hm Hc c Hcomp. eapply source_complete; eauto.
Qed.
Print Assumptions C41_source_complete.
(** The same with the constraint optimiser at the end. *)
Theorem C41_source_optimized_sound : forall (PF : PrimeField) ext (hash : stmt -> Z) p p' c c' s4 (w : env), (3 <= required_bits)%nat -> sty_prog p -> scoped_prog p -> ends_return p -> no_cast_prog p -> no_pow0_prog p ->
  analyse p = Some p' -> max_ok_prog p' -> compile p' = Some c -> unpacks_checked p' -> cache_safe p' ->
  optimize_4 (exec_solver ext) (pargs c) (pret c) (flat_stmts (pstmts c)) = Some s4 ->
  (forall a b, In a s4 -> In b s4 -> hash a = hash b -> strip a = strip b) ->
  optimize (exec_solver ext) hash c = Some c' -> satisfies w c' ->
  forall rets logs, sem_prog p (map (fun q => w (pid q)) (pargs c')) = Some (rets, logs) -> rets = map (fun i => w (vpub i)) (seq 0 (zret p)).
Proof.
  intros PF ext hash p p' c c' s4 w H1 H2 H3 He Hn H5 H6 H7 H8 Hu H9 H10 H11 H12 H13 rets logs R. destruct (analyse_ok p H2 H3) as [p1 [A [B [C [D [E [G S]]]]]]]. rewrite H6 in A. injection A as <-.
  destruct (compile_optimize_sound ext hash p' c c' s4 w H1 (E H7) Hu (G He) H8 H9 H10 H11 H12 (S Hn _) H13) as [logs' X]. apply (analyse_sem p p' _ _ H1 H2 H3 H5 H6) in R. rewrite R in X. injection X as X _. rewrite X, C. reflexivity.
Qed.
Print Assumptions C41_source_optimized_sound.
Theorem C41_source_optimized_complete : forall (PF : PrimeField) ext (hash : stmt -> Z) p p' c (inputs : list F) rets logs, (3 <= required_bits)%nat -> sty_prog p -> scoped_prog p -> ends_return p -> no_pow0_prog p ->
  analyse p = Some p' -> max_ok_prog p' -> compile p' = Some c -> cache_clean p' -> sem_prog p inputs = Some (rets, logs) ->
  exists s4, optimize_4 (exec_solver ext) (pargs c) (pret c) (flat_stmts (pstmts c)) = Some s4 /\
  ((forall a b, In a s4 -> In b s4 -> hash a = hash b -> strip a = strip b) ->
   exists c' w logs', optimize (exec_solver ext) hash c = Some c' /\
     exec_prog (exec_solver ext) (pargs c') (flat_stmts (pstmts c')) inputs = Done w logs' /\
     map (fun i => sget (vpub i) w) (seq 0 (zret p)) = map Some rets /\ (forall e, In e logs' <-> In e logs)).
Proof.
  intros PF ext hash p p' c inputs rets logs H1 H2 H3 He H5 H6 H7 H8 H9 R. destruct (analyse_ok p H2 H3) as [p1 [A [B [C [D [E [G S]]]]]]]. rewrite H6 in A. injection A as <-.
  rewrite <- C. apply (compile_optimize_complete ext hash p' c inputs rets logs H1 (E H7) (G He) H8 H9). eapply analyse_sem; eauto.
Qed.
Print Assumptions C41_source_optimized_complete.

(** ** Programs over the BN254 scalar field *)
(** def main(private field x, private u32 n, private bool b) -> (field, u32) {
      field y = if b { 7 / x } else { x }; field dead = x * x; assert(y != 5); if b { field q = y + 1 ; log } else { }; return (y + q, n / 3 + 1) } *)
Definition exs : @zprog bn254 :=
  mkZProg [mkZParam 1 PF_ true; mkZParam 2 (PU_ 32) true; mkZParam 3 PB_ true]
    [ZDef 4 (ZCond KF (ZId KB 3) (ZFBin FDiv (ZFVal (of_Z 7)) (ZId KF 1)) (ZId KF 1));
     ZDef 5 (ZFBin FMul (ZId KF 1) (ZId KF 1));
     ZAssert (ZBNot (ZCmp CFEq (ZId KF 4) (ZFVal (of_Z 5)))) 0;
     ZIf (ZId KB 3) [ZDef 6 (ZFBin FAdd (ZId KF 4) (ZFVal (of_Z 1)))] [ZLog 9 [ZId KF 4]];
     ZReturn [ZFBin FAdd (ZId KF 4) (ZId KF 6); ZUBin (W 32) UAdd (ZUBin (W 32) UDiv (uid 32 2) (ulit 32 3)) (ulit 32 1)]] 2.
Lemma exs_scoped : scoped_prog exs.
Proof. repeat constructor. intros x [<-|[]] [X|[]]. discriminate X. Qed.
Definition anb (p : @zprog bn254) : bool :=
  match analyse p with Some p' => max_ok_progb p' && cleanb p' && match compile p' with Some _ => true | None => false end && (length (zbody p') <? length (zbody (extract_panics p)))%nat | None => false end.
Example C38_nonvacuous : sty_prog exs /\ scoped_prog exs /\ no_cast_prog exs /\ no_pow0_prog exs /\ strict_prog exs /\ ends_return exs /\ source_result exs [7; 30; 1] = Some [3; 11] /\ source_result exs [0; 30; 0] = None.
Proof.
  split; [apply sty_progb_ok; vm_compute; reflexivity|]. split; [exact exs_scoped|]. split; [repeat constructor|]. split; [repeat constructor|]. split; [repeat constructor|].
  split; [apply ends_returnb_ok; vm_compute; reflexivity|]. split; vm_compute; reflexivity.
Qed.
(** the hypotheses of the C41 theorems hold of it too; the untaken branch's division makes [0; 30; 0] fail, as documented *)
Example C41_source_nonvacuous : exists p' c, analyse exs = Some p' /\ max_ok_prog p' /\ cache_clean p' /\ unpacks_checked p' /\ cache_safe p' /\ compile p' = Some c /\ (length (zbody p') < length (zbody (extract_panics exs)))%nat.
Proof.
  assert (H : anb exs = true) by (vm_compute; reflexivity). unfold anb in H. destruct (analyse exs) as [p'|]; [|discriminate H]. exists p'. destruct (compile p') as [c|]; [|rewrite andb_false_r in H; discriminate H]. exists c.
  rewrite andb_true_r in H. apply andb_prop in H as [H H3]. apply andb_prop in H as [H1 H2]. split; [reflexivity|]. split; [apply max_ok_progb_ok; exact H1|]. pose proof (cleanb_checked p' H2) as Hu. destruct (cleanb_ok p' H2) as [A B]. split; [exact A|]. split; [exact Hu|]. split; [exact B|]. split; [reflexivity|apply Nat.ltb_lt; exact H3].
Qed.
Example C40_nonvacuous : (length (zbody exs) < length (zbody (extract_panics exs)))%nat /\ ~ safe_prog exs [f0; f0; f0].
Proof.
  split; [vm_compute; lia|]. intros H. unfold safe_prog, safe_prog_k in H. destruct (bind_params (fun _ => None) (zargs exs) ([f0; f0; f0] : list (@F bn254))) as [rho|] eqn:E.
  - specialize (H rho eq_refl). destruct H as [H _]. cbn [CgProg.safe_stmt divs] in H. destruct H as [_ [[_ [_ H]] _]]. apply H. cbn [sem os_env].
    assert (X : match bind_params (fun _ => None) (zargs exs) ([f0; f0; f0] : list (@F bn254)) with Some r => match r 1 with Some (VF x) => fval x =? 0 | _ => false end | None => false end = true) by (vm_compute; reflexivity).
    rewrite E in X. destruct (rho 1) as [[x| |]|]; try discriminate X. apply Z.eqb_eq in X. rewrite (F_ext x f0 X). reflexivity.
  - assert (X : match bind_params (fun _ => None) (zargs exs) ([f0; f0; f0] : list (@F bn254)) with Some _ => true | None => false end = true) by (vm_compute; reflexivity). rewrite E in X. discriminate X.
Qed.

(** C38 is false of failures in general: elimination removes an out-of-bounds access, a remainder by zero, or an unpacking
    that does not fit, when its result is unused; the compiled program then accepts inputs on which the source fails.
      def main(private u32 i, private field x) -> field { field y = [x, 1][i]; return x; } *)
Definition p_dead : @zprog bn254 :=
  mkZProg [mkZParam 1 (PU_ 32) true; mkZParam 2 PF_ true] [ZDef 3 (ZSel KF [ZId KF 2; ZFVal (of_Z 1)] (uid 32 1)); ZReturn [ZId KF 2]] 1.
Definition run_source (p : @zprog bn254) (inputs : list Z) : option (list (option Z)) :=
  match analyse p with Some p' => match compile p' with Some c => run_prog c inputs | None => Some [] end | None => Some [] end.
Definition p_rem : @zprog bn254 := mkZProg [mkZParam 1 (PU_ 32) true] [ZDef 3 (ZUBin (W 32) URem (ulit 32 5) (uid 32 1)); ZReturn [uid 32 1]] 1.
Theorem C38_failures_refuted : exists (p : @zprog bn254), sty_prog p /\ scoped_prog p /\ no_pow0_prog p /\ source_result p [2; 9] = None /\ source_result (eliminate (extract_panics p)) [2; 9] = Some [9] /\ run_source p [2; 9] = Some [Some 9].
Proof.
  exists p_dead. split; [apply sty_progb_ok; vm_compute; reflexivity|]. split; [repeat constructor|]. split; [repeat constructor|]. split; [vm_compute; reflexivity|]. split; vm_compute; reflexivity.
Qed.
Print Assumptions C38_failures_refuted.
Theorem C38_remainder_refuted : exists (p : @zprog bn254), sty_prog p /\ scoped_prog p /\ no_pow0_prog p /\ source_result p [0] = None /\ run_source p [0] = Some [Some 0].
Proof.
  exists p_rem. split; [apply sty_progb_ok; vm_compute; reflexivity|]. split; [repeat constructor|]. split; [repeat constructor|]. split; vm_compute; reflexivity.
Qed.
Print Assumptions C38_remainder_refuted.
