(** Property theorems: compilation of programs with assignments to parts of variables (C51).
    Reading guide. [wprog], [wrun], [wcompile] (Writes.v): the program, what the language says it does, the passes from
    VariableWriteRemover to the Flattener, see PropWrites.v. [propagate], [analyse], [compile], [optimize]: the following passes, see
    PropFold.v, PropSource.v, PropCompile.v and PropIR.v. [satisfies w c]: the witness w satisfies the constraints of c. [wfails p vs]
    (WritesEnd.v): an assertion of the main function is false, or a computed index of an assignment is out of bounds, everything before
    being defined. [safe_write] (Writes.v): the class of assignments for which C48 holds. [wuncast p] (WritesWf.v): no
    field_to_bool_unsafe. [max_ok_prog], [cache_safe], [cache_clean]: computable checks of the compiler's intermediate
    programs, see PropFold.v, PropUint.v, PropCompile.v. *)
From Coq Require Import String.
From Coq Require Import ZArith NArith List Bool Lia Permutation.
From Verif Require Import PField SMap IR IRSpec Wf Interp Optimizer OptimizerProofs OptPipeline OptExtra Bits Flat FlatProofs Zir Codegen CgBase CgGadgets CgExpr CgStmt CgEmit CgProg CgWf CgEnd
  InterpProofs PropIR Concrete Primality CgExamples CgCheck PropCodegen PropCompile UintOpt UintOptProofs UintRaw UintCheck PropUint Panic DeadCode Source NoFail PropSource ZProp ZPropVars ZPropStmt ZPropType PropFold
  Str Abi Typed Flatten FlattenOps FlattenSim FlattenRun FlattenTy FlattenShape Enforce FlattenEnd PropTyped Fields ProgIO Writes Redefine WritesVal WritesExp WritesChoose WritesRun WritesEnd WritesWf Closed ClosedW PropWrites.
Import ListNotations.
Open Scope Z_scope.

(** ** Any flat program in the form the passes need *)
Definition flat_form {PF : PrimeField} (z : zprog) : Prop := sty_prog z /\ ends_return z /\ fresh_prog z /\ scoped_prog z.
Definition zbuilt {PF : PrimeField} (z p1 p' : zprog) (c : prog) : Prop := propagate z = Some p1 /\ analyse p1 = Some p' /\ compile p' = Some c.
Lemma zbuilt_result : forall (PF : PrimeField) z p1 p' c inputs outs logs, (3 <= required_bits)%nat -> flat_form z -> zbuilt z p1 p' c -> closed_prog p1 = true -> sem_prog p' inputs = Some (outs, logs) ->
  (exists rho, bind_params (fun _ => None) (zargs z) inputs = Some rho) /\ (forall R, (R = true -> checks_kept p1 = true) -> ~ violates_prog R z inputs) /\ forall rets lg, sem_prog z inputs = Some (rets, lg) -> outs = rets /\ sublog logs lg.
Proof.
  intros PF z p1 p' c inputs outs logs Hr3 [A [B [C D]]] [H2 [H3 H4]] Hc R. destruct (C39_output PF z p1 A B C H2 Hc) as [T1 [E1 [N1 [S1 _]]]].
  destruct (analyse_ok p1 T1 (S1 D)) as [p2 [P1 [_ [_ [P4 _]]]]]. rewrite H3 in P1. injection P1 as <-.
  assert (Ea : zargs p1 = zargs z) by (apply (propagate_shape z p1 H2)). pose proof R as R0. rewrite P4 in R. split; [|split].
  - unfold sem_prog, eliminate, extract_panics in R. cbn [zargs] in R. rewrite Ea in R. destruct (bind_params (fun _ => None) (zargs z) inputs) as [rho|]; [exists rho; reflexivity|discriminate R].
  - intros K HK Hf. apply (propagate_violates K z p1 _ A B C H2 Hc) in Hf. apply (analyse_violates K p1 _ Hr3 N1 (S1 D) HK) in Hf. rewrite R in Hf. discriminate Hf.
  - intros rets lg Q. destruct (propagate_sem false z _ _ _ A B C (fun X => match Bool.diff_false_true X with end) Q) as [q [X1 [_ [_ X2]]]]. rewrite H2 in X1. injection X1 as <-. destruct (X2 Hc) as [logs' [X3 X4]].
    apply (analyse_sem p1 p' _ _ Hr3 T1 (S1 D) N1 H3) in X3. rewrite R0 in X3. injection X3 as -> ->. split; [reflexivity|exact X4].
Qed.
Lemma zbuilt_facts : forall (PF : PrimeField) z p1 p' c, flat_form z -> no_cast_prog z -> zbuilt z p1 p' c -> closed_prog p1 = true -> max_ok_prog p' ->
  wtp p' /\ ends_return p' /\ (forall inputs, safe_prog p' inputs) /\ zret p' = zret z.
Proof.
  intros PF z p1 p' c [A [B [C D]]] N [H2 [H3 H4]] Hc Hm. destruct (C39_output PF z p1 A B C H2 Hc) as [T1 [E1 [N1 [S1 C1]]]].
  destruct (analyse_ok p1 T1 (S1 D)) as [p2 [P1 [_ [P3 [_ [P5 [P6 P7]]]]]]]. rewrite H3 in P1. injection P1 as <-. split; [exact (P5 Hm)|]. split; [exact (P6 E1)|]. split; [exact (P7 (C1 N))|]. rewrite P3. apply (propagate_shape z p1 H2).
Qed.
Theorem zbuilt_optimized_complete : forall (PF : PrimeField) ext (hash : stmt -> Z) z p1 p' c inputs rets lg, (3 <= required_bits)%nat -> flat_form z -> no_cast_prog z -> zbuilt z p1 p' c ->
  closed_prog p1 = true -> max_ok_prog p' -> cache_clean p' -> sem_prog z inputs = Some (rets, lg) ->
  exists s4, optimize_4 (exec_solver ext) (pargs c) (pret c) (flat_stmts (pstmts c)) = Some s4 /\
  ((forall a b, In a s4 -> In b s4 -> hash a = hash b -> strip a = strip b) ->
   exists c' w logs, optimize (exec_solver ext) hash c = Some c' /\ exec_prog (exec_solver ext) (pargs c') (flat_stmts (pstmts c')) inputs = Done w logs /\
     map (fun i => sget (vpub i) w) (seq 0 (zret z)) = map Some rets /\ incl logs lg).
Proof.
  intros PF ext hash z p1 p' c inputs rets lg Hr3 Fz Nc Hb Hc Hm Hca Q. destruct (zbuilt_facts PF z p1 p' c Fz Nc Hb Hc Hm) as [A [A2 [_ C]]]. destruct Hb as [H2 [H3 H4]]. destruct Fz as [Q1 [Q2 [Q3 Q4]]]. destruct (C39_output PF z p1 Q1 Q2 Q3 H2 Hc) as [T1 [E1 [N1 [S1 _]]]].
  destruct (propagate_sem false z _ _ _ Q1 Q2 Q3 (fun X => match Bool.diff_false_true X with end) Q) as [q [X1 [_ [_ X2]]]]. rewrite H2 in X1. injection X1 as <-. destruct (X2 Hc) as [logs' [X3 X4]].
  apply (analyse_sem p1 p' _ _ Hr3 T1 (S1 Q4) N1 H3) in X3. destruct (compile_optimize_complete ext hash p' c _ _ _ Hr3 A A2 H4 Hca X3) as [s4 [Y1 Y2]]. exists s4. split; [exact Y1|]. intros Hh. destruct (Y2 Hh) as [c' [w [logs [Z1 [Z2 [Z3 Z4]]]]]]. exists c', w, logs. rewrite C in Z3. split; [exact Z1|]. split; [exact Z2|]. split; [exact Z3|].
  intros e I. apply Z4 in I. cbn [logrel] in X4. exact (sublog_in _ _ _ X4 e I).
Qed.

(** ** The whole chain *)
Definition wbuilt {PF : PrimeField} (p : wprog) (z p1 p' : zprog) (c : prog) : Prop := wcompile p = Some z /\ propagate z = Some p1 /\ analyse p1 = Some p' /\ compile p' = Some c.
(** the programs of C48 *)
Definition wsafe {PF : PrimeField} (p : wprog) : Prop := wwell_typed p /\ nonneg_ids p /\ forallb safe_write (wbody p) = true.
Lemma wflat_form_ok : forall (PF : PrimeField) p z, (131 <= required_bits)%nat -> wsafe p -> wcompile p = Some z -> flat_form z /\ zret z = prim_count (wretty p) /\ zargs z = flat_map flat_param (wargs p) /\ (wuncast p -> no_cast_prog z).
Proof. intros PF p z Hr [Wt [Nn Sw]] H. destruct (wcompile_wf p z Hr Wt Nn Sw H) as [A [B [C [D [E [G K]]]]]]. split; [split; [exact A|split; [exact B|split; [exact C|exact D]]]|]. auto. Qed.
(** The flat program is well typed and in the form the following passes need (the variables may be assigned again). *)
Theorem C51_output : forall (PF : PrimeField) p z, (131 <= required_bits)%nat -> wsafe p -> wcompile p = Some z ->
  sty_prog z /\ ends_return z /\ fresh_prog z /\ scoped_prog z /\ zret z = prim_count (wretty p) /\ zargs z = flat_map flat_param (wargs p).
Proof. intros PF p z Hr Ws H. destruct (wflat_form_ok PF p z Hr Ws H) as [[A [B [C D]]] [E [G _]]]. auto 10. Qed.
Print Assumptions C51_output.
(** Flattening, then constant propagation, leave no read of an undefined variable. *)
Theorem C51_closed : forall (PF : PrimeField) p z p1 p' c, wsafe p -> wbuilt p z p1 p' c -> closed_prog p1 = true.
Proof. intros PF p z p1 p' c [Wt [Nn Sw]] [H1 [H2 _]]. exact (wcompile_closed_prog p z p1 Wt Nn Sw H1 H2). Qed.
Lemma wof_result : forall (PF : PrimeField) p z p1 p' c inputs outs logs, (131 <= required_bits)%nat -> wsafe p -> wbuilt p z p1 p' c -> closed_prog p1 = true -> sem_prog p' inputs = Some (outs, logs) ->
  exists vs, Forall2 has_type vs (map pty (wargs p)) /\ inputs = encode_values vs /\ ~ wfails p vs /\ (checks_kept p1 = true -> ~ wfails_k true p vs) /\ forall v lg, wrun p vs = Ok (v, lg) -> outs = encode v /\ exists lz, Permutation lz (map zentry lg) /\ sublog logs lz.
Proof.
  intros PF p z p1 p' c inputs outs logs Hr Ws [H1 Hb] Hc R. destruct (wflat_form_ok PF p z Hr Ws H1) as [Fz [_ [Ea _]]]. pose proof (req_wide Hr) as W. assert (Hr3 : (3 <= required_bits)%nat) by (clear - Hr; lia).
  destruct (zbuilt_result PF z p1 p' c inputs outs logs Hr3 Fz Hb Hc R) as [[rho B] [V Q]]. destruct Ws as [Wt [Nn Sw]]. rewrite Ea in B. destruct (args_values _ _ _ _ (proj1 Wt) B) as [vs [V1 V2]]. exists vs. split; [exact V1|]. split; [exact V2|]. subst inputs. split.
  - intros Hf. apply (V false); [intros X; discriminate X|]. exact (wcompile_violates false p z vs W Wt Nn Sw H1 V1 Hf).
  - split; [intros Hk Hf; apply (V true (fun _ => Hk)); exact (wcompile_violates true p z vs W Wt Nn Sw H1 V1 Hf)|]. intros v lg Hv. destruct (wcompile_run p z vs v lg W Wt Nn Sw H1 V1 Hv) as [_ [lz [X1 X2]]]. destruct (Q _ _ X1) as [Y1 Y2]. split; [exact Y1|]. exists lz. split; assumption.
Qed.
(** Whatever satisfies the constraints carries values of the declared types on which the program does not fail (no assertion of the main
    function is false, no computed index of an assignment is out of bounds; and no built-in function rejects its arguments, if elimination of
    dead code has not dropped one that could), and the program's result on them whenever it has one. *)
Theorem C51_sound : forall (PF : PrimeField) p z p1 p' c (w : env), (131 <= required_bits)%nat -> wsafe p -> wuncast p -> wbuilt p z p1 p' c ->
  max_ok_prog p' -> unpacks_checked p' -> cache_safe p' -> satisfies w c ->
  exists vs, Forall2 has_type vs (map pty (wargs p)) /\ map (fun q => w (pid q)) (pargs c) = encode_values vs /\ ~ wfails p vs /\ (checks_kept p1 = true -> ~ wfails_k true p vs) /\
    forall v lg, wrun p vs = Ok (v, lg) -> map (fun i => w (vpub i)) (seq 0 (prim_count (wretty p))) = encode v /\ exists lz, Permutation lz (map zentry lg) /\ sublog (logs_of w (flat_stmts (pstmts c))) lz.
Proof.
  intros PF p z p1 p' c w Hr Ws U Hb Hm Hu Hca Hsat. pose proof (C51_closed PF p z p1 p' c Ws Hb) as Hc. destruct (wflat_form_ok PF p z Hr Ws (proj1 Hb)) as [Fz [Ez [_ Nc]]]. assert (Hr3 : (3 <= required_bits)%nat) by (clear - Hr; lia). destruct (zbuilt_facts PF z p1 p' c Fz (Nc U) (proj2 Hb) Hc Hm) as [A [_ [B C]]].
  pose proof (compile_sound p' c w Hr3 A Hu (proj2 (proj2 (proj2 Hb))) Hca (B _) Hsat) as R. rewrite C, Ez in R. exact (wof_result PF p z p1 p' c _ _ _ Hr Ws Hb Hc R).
Qed.
Print Assumptions C51_sound.
(** The same of the optimised constraints. *)
Theorem C51_optimized_sound : forall (PF : PrimeField) ext (hash : stmt -> Z) p z p1 p' c c' s4 (w : env), (131 <= required_bits)%nat -> wsafe p -> wuncast p -> wbuilt p z p1 p' c ->
  max_ok_prog p' -> unpacks_checked p' -> cache_safe p' ->
  optimize_4 (exec_solver ext) (pargs c) (pret c) (flat_stmts (pstmts c)) = Some s4 -> (forall a b, In a s4 -> In b s4 -> hash a = hash b -> strip a = strip b) ->
  optimize (exec_solver ext) hash c = Some c' -> satisfies w c' ->
  exists vs, Forall2 has_type vs (map pty (wargs p)) /\ map (fun q => w (pid q)) (pargs c') = encode_values vs /\ ~ wfails p vs /\ (checks_kept p1 = true -> ~ wfails_k true p vs) /\
    forall v lg, wrun p vs = Ok (v, lg) -> map (fun i => w (vpub i)) (seq 0 (prim_count (wretty p))) = encode v.
Proof.
  intros PF ext hash p z p1 p' c c' s4 w Hr Ws U Hb Hm Hu Hca H4 Hh Ho Hsat. pose proof (C51_closed PF p z p1 p' c Ws Hb) as Hc. destruct (wflat_form_ok PF p z Hr Ws (proj1 Hb)) as [Fz [Ez [_ Nc]]]. assert (Hr3 : (3 <= required_bits)%nat) by (clear - Hr; lia). destruct (zbuilt_facts PF z p1 p' c Fz (Nc U) (proj2 Hb) Hc Hm) as [A [A2 [B C]]].
  destruct (compile_optimize_sound ext hash p' c c' s4 w Hr3 A Hu A2 (proj2 (proj2 (proj2 Hb))) Hca H4 Hh Ho (B _) Hsat) as [logs R]. rewrite C, Ez in R. destruct (wof_result PF p z p1 p' c _ _ _ Hr Ws Hb Hc R) as [vs [X1 [X2 [X3 [X5 X4]]]]].
  exists vs. split; [exact X1|]. split; [exact X2|]. split; [exact X3|]. split; [exact X5|]. intros v lg Hv. exact (proj1 (X4 v lg Hv)).
Qed.
Print Assumptions C51_optimized_sound.
(** A program with a result on the arguments is executed on them, with that result; the analyses do not fail. *)
Theorem C51_complete : forall (PF : PrimeField) ext p z vs v lg, (131 <= required_bits)%nat -> wsafe p -> wcompile p = Some z -> Forall2 has_type vs (map pty (wargs p)) -> wrun p vs = Ok (v, lg) ->
  exists p1 p', propagate z = Some p1 /\ analyse p1 = Some p' /\ (max_ok_prog p' -> cache_clean p' -> forall c, compile p' = Some c ->
  exists w logs lz outs, exec_prog (exec_solver ext) (pargs c) (flat_stmts (pstmts c)) (encode_values vs) = Done w logs /\ Permutation lz (map zentry lg) /\ sublog logs lz /\
    map (fun i => sget (vpub i) w) (seq 0 (prim_count (wretty p))) = map Some outs /\ outs = encode v /\ has_type v (wretty p) /\ (no_empty (wretty p) -> decode (wretty p) outs = Some v)).
Proof.
  intros PF ext p z vs v lg Hr Ws H1 V1 Hv. destruct (wflat_form_ok PF p z Hr Ws H1) as [[A [B [C D]]] [Ez _]]. destruct Ws as [Wt [Nn Sw]]. pose proof (req_wide Hr) as W. assert (Hr3 : (3 <= required_bits)%nat) by (clear - Hr; lia).
  destruct (wcompile_run p z vs v lg W Wt Nn Sw H1 V1 Hv) as [Tv [lz [Q Pm]]]. destruct (C41_propagated_complete PF ext z _ _ _ Hr3 A B C D Q) as [p1 [P1 P2]]. destruct (P2 (wcompile_closed_prog p z p1 Wt Nn Sw H1 P1)) as [p' [P3 P4]]. exists p1, p'. split; [exact P1|]. split; [exact P3|].
  intros Hm Hca c H4. destruct (P4 Hm Hca c H4) as [w [logs [X1 [X2 X3]]]]. exists w, logs, lz, (encode v). rewrite Ez in X2. split; [exact X1|]. split; [exact Pm|]. split; [exact X3|]. split; [exact X2|]. split; [reflexivity|]. split; [exact Tv|]. intros Ne. exact (decode_encode W _ _ Tv Ne).
Qed.
Print Assumptions C51_complete.
Theorem C51_optimized_complete : forall (PF : PrimeField) ext (hash : stmt -> Z) p z p1 p' c vs v lg, (131 <= required_bits)%nat -> wsafe p -> wuncast p -> wbuilt p z p1 p' c ->
  max_ok_prog p' -> cache_clean p' -> Forall2 has_type vs (map pty (wargs p)) -> wrun p vs = Ok (v, lg) ->
  exists s4, optimize_4 (exec_solver ext) (pargs c) (pret c) (flat_stmts (pstmts c)) = Some s4 /\
  ((forall a b, In a s4 -> In b s4 -> hash a = hash b -> strip a = strip b) ->
   exists c' w logs, optimize (exec_solver ext) hash c = Some c' /\ exec_prog (exec_solver ext) (pargs c') (flat_stmts (pstmts c')) (encode_values vs) = Done w logs /\
     map (fun i => sget (vpub i) w) (seq 0 (prim_count (wretty p))) = map Some (encode v) /\ incl logs (map zentry lg)).
Proof.
  intros PF ext hash p z p1 p' c vs v lg Hr Ws U Hb Hm Hca V1 Hv. pose proof (C51_closed PF p z p1 p' c Ws Hb) as Hc. destruct (wflat_form_ok PF p z Hr Ws (proj1 Hb)) as [Fz [Ez [_ Nc]]]. assert (Hr3 : (3 <= required_bits)%nat) by (clear - Hr; lia). destruct Ws as [Wt [Nn Sw]]. destruct (wcompile_run p z vs v lg (req_wide Hr) Wt Nn Sw (proj1 Hb) V1 Hv) as [_ [lz [Q Pm]]].
  destruct (zbuilt_optimized_complete PF ext hash z p1 p' c _ _ _ Hr3 Fz (Nc U) (proj2 Hb) Hc Hm Hca Q) as [s4 [X1 X2]]. rewrite <- Ez. exists s4. split; [exact X1|]. intros Hh. destruct (X2 Hh) as [c' [w [logs [Y1 [Y2 [Y3 Y4]]]]]]. exists c', w, logs. split; [exact Y1|]. split; [exact Y2|]. split; [exact Y3|].
  intros e I. apply (Permutation_in e Pm). exact (Y4 e I).
Qed.
Print Assumptions C51_optimized_complete.

(** the program of C48_nonvacuous: assignments at a computed and at a fixed index *)
Definition fullw (p : @wprog bn254) : bool := match wcompile p with Some z => fullb z | None => false end.
Example C51_nonvacuous : (131 <= @required_bits bn254)%nat /\ wsafe p_ok /\ wuncast p_ok /\ exists z p1 p' c, wbuilt p_ok z p1 p' c /\ closed_prog p1 = true /\ max_ok_prog p' /\ cache_clean p' /\ unpacks_checked p' /\ cache_safe p'.
Proof.
  destruct C48_nonvacuous as [_ [A [B [C _]]]]. split; [apply Nat.leb_le; vm_compute; reflexivity|]. split; [split; [exact A|split; [exact B|exact C]]|]. split; [vm_compute; tauto|].
  assert (H : fullw p_ok = true) by (vm_compute; reflexivity). unfold fullw in H. destruct (wcompile p_ok) as [z|] eqn:E; [|discriminate H]. exists z. unfold fullb in H. destruct (propagate z) as [p1|] eqn:Ep; [|discriminate H]. exists p1. apply andb_prop in H as [H0 H]. destruct (analyse p1) as [p'|] eqn:Ea; [|discriminate H]. exists p'.
  destruct (compile p') as [c|] eqn:Ec; [|rewrite andb_false_r in H; discriminate H]. exists c. rewrite andb_true_r in H. apply andb_prop in H as [H1 H2]. pose proof (cleanb_checked p' H2) as Hu. destruct (cleanb_ok p' H2) as [X Y].
  split; [split; [exact E|split; [exact Ep|split; [exact Ea|exact Ec]]]|]. split; [exact H0|]. split; [apply max_ok_progb_ok; exact H1|]. split; [exact X|split; [exact Hu|exact Y]].
Qed.
