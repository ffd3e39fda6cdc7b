(** Property theorems: flattening of the typed language (C46) and compilation of typed programs (C47).
    Reading guide. [tprog] (Typed.v): a program of the typed language, after functions are inlined and loops unrolled. [trun p vs]
    (Typed.v): what the language says happens on the arguments vs: [Ok (v, lg)] a result and a log, [Failed] a failed assertion (or a
    built-in function rejecting its arguments), [Stuck] an undefined operation. [well_typed p] (Typed.v): typing, each variable defined
    once. [flatten] (Flatten.v): the pass, [None] for a panic. [sem_prog z inputs] (Zir.v): the meaning of a flat program on field
    elements. [encode], [decode], [has_type] (Abi.v): structured values and their field elements. [zentry]: a log entry with its values
    encoded. [assert_fails p vs] (FlattenEnd.v): an assertion of the main function is false, everything before it being defined.
    [uncast p]: no field_to_bool_unsafe. [max_ok_prog], [cache_safe], [cache_clean]: computable checks of the compiler's
    intermediate programs, see PropFold.v, PropUint.v, PropCompile.v. *)
From Coq Require Import String.
From Coq Require Import ZArith NArith List Bool Lia.
From Verif Require Import PField SMap IR IRSpec Wf Interp Optimizer OptimizerProofs OptPipeline OptExtra Bits Flat FlatProofs Zir Codegen CgBase CgGadgets CgExpr CgStmt CgEmit CgProg CgWf CgEnd
  InterpProofs PropIR Concrete Primality CgExamples CgCheck PropCodegen PropCompile UintOpt UintOptProofs UintRaw UintCheck PropUint Panic DeadCode Source NoFail PropSource ZProp ZPropVars ZPropStmt ZPropType PropFold
  Str Abi Typed Flatten FlattenOps FlattenSim FlattenRun FlattenTy FlattenShape Enforce FlattenEnd Closed Fields ProgIO.
Import ListNotations.
Open Scope Z_scope.

(** The flattened program computes the encoding of the result, with the same log, and fails when the program fails. *)
Theorem C46_flatten_runs : forall (PF : PrimeField) p z vs, wide -> well_typed p -> flatten p = Some z -> Forall2 has_type vs (map pty (targs p)) ->
  match trun p vs with
  | Ok (v, lg) => has_type v (tretty p) /\ sem_prog z (encode_values vs) = Some (encode v, map zentry lg)
  | Failed => sem_prog z (encode_values vs) = None
  | Stuck => True
  end.
Proof. intros PF. exact flatten_run. Qed.
Print Assumptions C46_flatten_runs.
(** It only accepts encodings of arguments of the declared types. *)
Theorem C46_inputs : forall (PF : PrimeField) p z inputs r, well_typed p -> flatten p = Some z -> sem_prog z inputs = Some r ->
  exists vs, Forall2 has_type vs (map pty (targs p)) /\ inputs = encode_values vs.
Proof.
  intros PF p z inputs r [G _] H R. apply flatten_inv in H as [ss [sr [zs [_ [_ ->]]]]]. unfold sem_prog in R. cbn [zargs] in R. destruct (bind_params (fun _ => None) (flat_map flat_param (targs p)) inputs) as [rho|] eqn:B; [|discriminate R]. exact (args_values _ _ _ _ G B).
Qed.
Print Assumptions C46_inputs.
(** It is well typed, in single assignment form, and returns as many field elements as the declared type has. *)
Theorem C46_output : forall (PF : PrimeField) p z, (131 <= required_bits)%nat -> well_typed p -> flatten p = Some z ->
  sty_prog z /\ ends_return z /\ ssa_prog z /\ scoped_prog z /\ zret z = prim_count (tretty p) /\ map (fun q => (zptype q, zpprivate q)) (zargs z) = flat_map (fun q => map (fun l => (lptype l, snd q)) (leaves (pty q))) (targs p).
Proof.
  intros PF p z Hr Wt H. destruct (flatten_wf p z Hr Wt H) as [A [B [C D]]]. split; [exact A|]. split; [exact B|]. split; [exact C|]. split; [exact D|]. apply flatten_inv in H as [ss [sr [zs [_ [_ ->]]]]]. split; [reflexivity|]. cbn [zargs].
  clear. induction (targs p) as [|q ps IH]; [reflexivity|]. cbn [flat_map]. rewrite map_app, IH. f_equal. unfold flat_param. rewrite map_map. cbn [zptype zpprivate]. rewrite <- (ids_leaves (pty q) (SBase (pname q))), map_map. reflexivity.
Qed.
Print Assumptions C46_output.

(** ** The whole chain *)
Definition built {PF : PrimeField} (p : tprog) (z p1 p' : zprog) (c : prog) : Prop := flatten p = Some z /\ propagate z = Some p1 /\ analyse p1 = Some p' /\ compile p' = Some c.
Lemma of_result : forall (PF : PrimeField) p z p1 p' c inputs outs logs, (131 <= required_bits)%nat -> well_typed p -> built p z p1 p' c -> closed_prog p1 = true -> sem_prog p' inputs = Some (outs, logs) ->
  exists vs, Forall2 has_type vs (map pty (targs p)) /\ inputs = encode_values vs /\ ~ assert_fails p vs /\ (checks_kept p1 = true -> ~ builtin_rejects p vs) /\ forall v lg, trun p vs = Ok (v, lg) -> outs = encode v /\ sublog logs (map zentry lg).
Proof.
  intros PF p z p1 p' c inputs outs logs Hr Wt [H1 [H2 [H3 H4]]] Hc R. destruct (C46_output PF p z Hr Wt H1) as [A [B [C [D [Ez _]]]]]. apply ssa_fresh in C. destruct (C39_output PF z p1 A B C H2 Hc) as [T1 [E1 [N1 [S1 _]]]]. pose proof (req_wide Hr) as W.
  assert (Hr3 : (3 <= required_bits)%nat) by (clear - Hr; lia). destruct (analyse_ok p1 T1 (S1 D)) as [p2 [P1 [_ [_ [P4 _]]]]]. rewrite H3 in P1. injection P1 as <-.
  assert (Ea : zargs p1 = zargs z) by (apply (propagate_shape z p1 H2)). pose proof R as R0. rewrite P4 in R.
  assert (Hb : exists rho, bind_params (fun _ => None) (zargs z) inputs = Some rho).
  { unfold sem_prog, eliminate, extract_panics in R. cbn [zargs] in R. rewrite Ea in R. destruct (bind_params (fun _ => None) (zargs z) inputs) as [rho|]; [exists rho; reflexivity|discriminate R]. }
  destruct Hb as [rho Hb]. assert (Ha : zargs z = flat_map flat_param (targs p)) by (apply flatten_inv in H1 as [ss [sr [zs [_ [_ ->]]]]]; reflexivity). rewrite Ha in Hb. destruct (args_values _ _ _ _ (proj1 Wt) Hb) as [vs [V1 V2]]. exists vs. split; [exact V1|]. split; [exact V2|]. split.
  - intros Hf. apply (flatten_violates false p z vs W Wt H1 V1) in Hf. rewrite <- V2 in Hf. apply (propagate_violates false z p1 _ A B C H2 Hc) in Hf. apply (analyse_violates false p1 _ Hr3 N1 (S1 D)) in Hf; [|intros X; discriminate X]. rewrite R in Hf. discriminate Hf.
  - split. { intros Hk Hf. apply (flatten_rejects p z vs W Wt H1 V1) in Hf. rewrite <- V2 in Hf. apply (propagate_violates true z p1 _ A B C H2 Hc) in Hf. apply (analyse_violates true p1 _ Hr3 N1 (S1 D) (fun _ => Hk)) in Hf. rewrite R in Hf. discriminate Hf. }
    intros v lg Hv. pose proof (flatten_run p z vs W Wt H1 V1) as Q. rewrite Hv in Q. destruct Q as [_ Q]. rewrite <- V2 in Q. destruct (propagate_sem false z _ _ _ A B C (fun X => match Bool.diff_false_true X with end) Q) as [q [X1 [_ [_ X2]]]]. rewrite H2 in X1. injection X1 as <-. destruct (X2 Hc) as [logs' [X3 X4]].
    apply (analyse_sem p1 p' _ _ Hr3 T1 (S1 D) N1 H3) in X3. rewrite R0 in X3. injection X3 as -> ->. split; [reflexivity|exact X4].
Qed.
(** Flattening, then constant propagation, leave no read of an undefined variable. *)
Theorem C47_closed : forall (PF : PrimeField) p z p1 p' c, well_typed p -> built p z p1 p' c -> closed_prog p1 = true.
Proof. intros PF p z p1 p' c Wt [H1 [H2 _]]. exact (flatten_closed_prog p z p1 Wt H1 H2). Qed.
Lemma built_facts : forall (PF : PrimeField) p z p1 p' c, (131 <= required_bits)%nat -> well_typed p -> uncast p -> built p z p1 p' c -> closed_prog p1 = true -> max_ok_prog p' ->
  wtp p' /\ ends_return p' /\ (forall inputs, safe_prog p' inputs) /\ zret p' = prim_count (tretty p) /\ (3 <= required_bits)%nat.
Proof.
  intros PF p z p1 p' c Hr Wt U [H1 [H2 [H3 H4]]] Hc Hm. destruct (C46_output PF p z Hr Wt H1) as [A [B [C [D [Ez _]]]]]. apply ssa_fresh in C. pose proof (flatten_uncast p z Wt H1 U) as N. destruct (C39_output PF z p1 A B C H2 Hc) as [T1 [E1 [N1 [S1 C1]]]].
  destruct (analyse_ok p1 T1 (S1 D)) as [p2 [P1 [_ [P3 [_ [P5 [P6 P7]]]]]]]. rewrite H3 in P1. injection P1 as <-. split; [exact (P5 Hm)|]. split; [exact (P6 E1)|]. split; [exact (P7 (C1 N))|]. split; [|clear - Hr; lia].
  rewrite P3. rewrite <- Ez. apply (propagate_shape z p1 H2).
Qed.
(** Whatever satisfies the constraints carries values of the declared types, on which no assertion of the main function fails, and the
    program's result on them whenever it has one. *)
Theorem C47_sound : forall (PF : PrimeField) p z p1 p' c (w : env), (131 <= required_bits)%nat -> well_typed p -> uncast p -> built p z p1 p' c ->
  max_ok_prog p' -> unpacks_checked p' -> cache_safe p' -> satisfies w c ->
  exists vs, Forall2 has_type vs (map pty (targs p)) /\ map (fun q => w (pid q)) (pargs c) = encode_values vs /\ ~ assert_fails p vs /\ (checks_kept p1 = true -> ~ builtin_rejects p vs) /\
    forall v lg, trun p vs = Ok (v, lg) -> map (fun i => w (vpub i)) (seq 0 (prim_count (tretty p))) = encode v /\ sublog (logs_of w (flat_stmts (pstmts c))) (map zentry lg).
Proof.
  intros PF p z p1 p' c w Hr Wt U Hb Hm Hu Hca Hsat. pose proof (C47_closed PF p z p1 p' c Wt Hb) as Hc. destruct (built_facts PF p z p1 p' c Hr Wt U Hb Hc Hm) as [A [_ [B [C Hr3]]]].
  pose proof (compile_sound p' c w Hr3 A Hu (proj2 (proj2 (proj2 Hb))) Hca (B _) Hsat) as R. rewrite C in R. exact (of_result PF p z p1 p' c _ _ _ Hr Wt Hb Hc R).
Qed.
Print Assumptions C47_sound.
(** The same of the optimised constraints. *)
Theorem C47_optimized_sound : forall (PF : PrimeField) ext (hash : stmt -> Z) p z p1 p' c c' s4 (w : env), (131 <= required_bits)%nat -> well_typed p -> uncast p -> built p z p1 p' c ->
  max_ok_prog p' -> unpacks_checked p' -> cache_safe p' ->
  optimize_4 (exec_solver ext) (pargs c) (pret c) (flat_stmts (pstmts c)) = Some s4 -> (forall a b, In a s4 -> In b s4 -> hash a = hash b -> strip a = strip b) ->
  optimize (exec_solver ext) hash c = Some c' -> satisfies w c' ->
  exists vs, Forall2 has_type vs (map pty (targs p)) /\ map (fun q => w (pid q)) (pargs c') = encode_values vs /\ ~ assert_fails p vs /\ (checks_kept p1 = true -> ~ builtin_rejects p vs) /\
    forall v lg, trun p vs = Ok (v, lg) -> map (fun i => w (vpub i)) (seq 0 (prim_count (tretty p))) = encode v.
Proof.
  intros PF ext hash p z p1 p' c c' s4 w Hr Wt U Hb Hm Hu Hca H4 Hh Ho Hsat. pose proof (C47_closed PF p z p1 p' c Wt Hb) as Hc. destruct (built_facts PF p z p1 p' c Hr Wt U Hb Hc Hm) as [A [A2 [B [C Hr3]]]].
  destruct (compile_optimize_sound ext hash p' c c' s4 w Hr3 A Hu A2 (proj2 (proj2 (proj2 Hb))) Hca H4 Hh Ho (B _) Hsat) as [logs R]. rewrite C in R. destruct (of_result PF p z p1 p' c _ _ _ Hr Wt Hb Hc R) as [vs [X1 [X2 [X3 [X5 X4]]]]].
  exists vs. split; [exact X1|]. split; [exact X2|]. split; [exact X3|]. split; [exact X5|]. intros v lg Hv. exact (proj1 (X4 v lg Hv)).
Qed.
Print Assumptions C47_optimized_sound.
(** A program with a result on the arguments is executed on them, with that result; the analyses do not fail. *)
Theorem C47_complete : forall (PF : PrimeField) ext p z vs v lg, (131 <= required_bits)%nat -> well_typed p -> flatten p = Some z -> Forall2 has_type vs (map pty (targs p)) -> trun p vs = Ok (v, lg) ->
  exists p1 p', propagate z = Some p1 /\ analyse p1 = Some p' /\ (max_ok_prog p' -> cache_clean p' -> forall c, compile p' = Some c ->
  exists w logs outs, exec_prog (exec_solver ext) (pargs c) (flat_stmts (pstmts c)) (encode_values vs) = Done w logs /\ sublog logs (map zentry lg) /\
    map (fun i => sget (vpub i) w) (seq 0 (prim_count (tretty p))) = map Some outs /\ outs = encode v /\ has_type v (tretty p) /\ (no_empty (tretty p) -> decode (tretty p) outs = Some v)).
Proof.
  intros PF ext p z vs v lg Hr Wt H1 V1 Hv. destruct (C46_output PF p z Hr Wt H1) as [A [B [C [D [Ez _]]]]]. apply ssa_fresh in C. pose proof (req_wide Hr) as W. assert (Hr3 : (3 <= required_bits)%nat) by (clear - Hr; lia).
  pose proof (flatten_run p z vs W Wt H1 V1) as Q. rewrite Hv in Q. destruct Q as [Tv Q]. destruct (C41_propagated_complete PF ext z _ _ _ Hr3 A B C D Q) as [p1 [P1 P2]]. destruct (P2 (flatten_closed_prog p z p1 Wt H1 P1)) as [p' [P3 P4]]. exists p1, p'. split; [exact P1|]. split; [exact P3|].
  intros Hm Hca c H4. destruct (P4 Hm Hca c H4) as [w [logs [X1 [X2 X3]]]]. exists w, logs, (encode v). rewrite Ez in X2. split; [exact X1|]. split; [exact X3|]. split; [exact X2|]. split; [reflexivity|]. split; [exact Tv|]. intros Ne. exact (decode_encode W _ _ Tv Ne).
Qed.
Print Assumptions C47_complete.
Lemma sublog_in : forall A (a b : list A), sublog a b -> forall x, In x a -> In x b.
Proof. induction 1 as [|y a b H IH|y a b H IH]; intros x I; [exact I|destruct I as [I|I]; [left; exact I|right; apply IH; exact I]|right; apply IH; exact I]. Qed.
Theorem C47_optimized_complete : forall (PF : PrimeField) ext (hash : stmt -> Z) p z p1 p' c vs v lg, (131 <= required_bits)%nat -> well_typed p -> uncast p -> built p z p1 p' c ->
  max_ok_prog p' -> cache_clean p' -> Forall2 has_type vs (map pty (targs p)) -> trun p vs = Ok (v, lg) ->
  exists s4, optimize_4 (exec_solver ext) (pargs c) (pret c) (flat_stmts (pstmts c)) = Some s4 /\
  ((forall a b, In a s4 -> In b s4 -> hash a = hash b -> strip a = strip b) ->
   exists c' w logs, optimize (exec_solver ext) hash c = Some c' /\ exec_prog (exec_solver ext) (pargs c') (flat_stmts (pstmts c')) (encode_values vs) = Done w logs /\
     map (fun i => sget (vpub i) w) (seq 0 (prim_count (tretty p))) = map Some (encode v) /\ (forall e, In e logs -> In e (map zentry lg))).
Proof.
  intros PF ext hash p z p1 p' c vs v lg Hr Wt U Hb Hm Hca V1 Hv. pose proof (C47_closed PF p z p1 p' c Wt Hb) as Hc. destruct (built_facts PF p z p1 p' c Hr Wt U Hb Hc Hm) as [A [A2 [_ [C Hr3]]]]. pose proof Hb as [H1 [H2 [H3 H4]]]. destruct (C46_output PF p z Hr Wt H1) as [Q1 [Q2 [Q3 [Q4 [Ez _]]]]]. apply ssa_fresh in Q3. destruct (C39_output PF z p1 Q1 Q2 Q3 H2 Hc) as [T1 [E1 [N1 [S1 _]]]]. pose proof (req_wide Hr) as W.
  pose proof (flatten_run p z vs W Wt H1 V1) as Q. rewrite Hv in Q. destruct Q as [_ Q]. destruct (propagate_sem false z _ _ _ Q1 Q2 Q3 (fun X => match Bool.diff_false_true X with end) Q) as [q [X1 [_ [_ X2]]]]. rewrite H2 in X1. injection X1 as <-. destruct (X2 Hc) as [logs' [X3 X4]].
  apply (analyse_sem p1 p' _ _ Hr3 T1 (S1 Q4) N1 H3) in X3. destruct (compile_optimize_complete ext hash p' c _ _ _ Hr3 A A2 H4 Hca X3) as [s4 [Y1 Y2]]. exists s4. split; [exact Y1|]. intros Hh. destruct (Y2 Hh) as [c' [w [logs [Z1 [Z2 [Z3 Z4]]]]]]. exists c', w, logs. rewrite C in Z3. split; [exact Z1|]. split; [exact Z2|]. split; [exact Z3|].
  intros e I. apply Z4 in I. cbn [logrel] in X4. exact (sublog_in _ _ _ X4 e I).
Qed.
Print Assumptions C47_optimized_complete.
(** The six fields are large enough. *)
Theorem C47_fields : forall (PF : PrimeField) c, pp = modulus c -> (131 <= required_bits)%nat.
Proof. intros PF c E. unfold required_bits. rewrite E. destruct c; apply Nat.leb_le; vm_compute; reflexivity. Qed.
Print Assumptions C47_fields.

(** ** Programs over the BN254 scalar field *)
(** struct P { field a; u32[2] b }
    def main(P p, private u32 i, private field x) -> (field, u32) {
      assert(x != 0); u32 y = p.b[i];
      field z = if i == 0 { field t = x * x; log(t); t } else { p.a };
      bool[32] bits = u32_to_bits(y); assert(!bits[0]);
      return (z + p.a / x, y + i); } *)
Definition ms : list (string * cty) := [("a"%string, CField); ("b"%string, CArray (CUint W32) 2)].
Definition U32 : cty := CUint W32.
Definition ext : @tprog bn254 :=
  mkTProg [(1, CStruct ms, false); (2, U32, true); (3, CField, true)]
    [TAssert (TOp ONot [TOp OEq [TId CField 3; TOp (OFVal f0) []]]) 0;
     TDef 4 U32 (TOp (OSel U32) [TOp (OMem ms "b") [TId (CStruct ms) 1]; TId U32 2]);
     TDef 5 CField (TCond (TOp OEq [TId U32 2; TOp (OUVal W32 0) []]) (TBlock [TDef 6 CField (TOp (OFBin FMul) [TId CField 3; TId CField 3]); TLog 7 [TId CField 6]] (TId CField 6)) (TOp (OMem ms "a") [TId (CStruct ms) 1]));
     TEmb 8 (CArray CBool 32) (EToBits 32) [TId U32 4];
     TAssert (TOp ONot [TOp (OSel CBool) [TId (CArray CBool 32) 8; TOp (OUVal W32 0) []]]) 0]
    (TOp OTup [TOp (OFBin FAdd) [TId CField 5; TOp (OFBin FDiv) [TOp (OMem ms "a") [TId (CStruct ms) 1]; TId CField 3]]; TOp (OUBin W32 UAdd) [TId U32 4; TId U32 2]])
    (CTuple [CField; U32]).
Ltac opty := lazymatch goal with
  | |- op_ty (OUVal _ _) _ _ => apply YUVal; split; [apply Z.leb_le|apply Z.ltb_lt]; vm_compute; reflexivity
  | |- op_ty (OFVal _) _ _ => apply YFVal | |- op_ty (OFBin _) _ _ => apply YFBin | |- op_ty OEq _ _ => apply YEq | |- op_ty ONot _ _ => apply YNot | |- op_ty (OUBin _ _) _ _ => apply YUBin
  | |- op_ty (OSel _) _ _ => apply YSel; apply Z.leb_le; vm_compute; reflexivity
  | |- op_ty (OMem _ "a") _ _ => apply YMem; exists []; eexists; split; [reflexivity|intros []]
  | |- op_ty (OMem _ "b") _ _ => apply YMem; exists [("a"%string, CField)]; eexists; split; [reflexivity|intros [H|[]]; discriminate H]
  | |- op_ty (OElt _ _) _ _ => apply YElt; reflexivity
  | |- op_ty OTup _ _ => apply YTup
  end.
Ltac typed := lazymatch goal with
  | |- tty _ (TId _ _) _ => apply YId; reflexivity
  | |- tty _ (TOp _ _) _ => eapply YOp; [typed|opty]
  | |- tty _ (TCond _ _ _) _ => eapply YCond; [typed|typed|typed]
  | |- tty _ (TBlock _ _) _ => eapply YBlock; [typed|typed]
  | |- ttys _ [] _ => apply YNil
  | |- ttys _ (_ :: _) _ => eapply YCons; [typed|typed]
  | |- tstys _ [] _ => apply YSnil
  | |- tstys _ (_ :: _) _ => eapply YScons; [typed|typed]
  | |- tsty _ (TDef _ _ _) _ => apply YDef; [exact I|typed]
  | |- tsty _ (TAssert _ _) _ => apply YAssert; typed
  | |- tsty _ (TLog _ _) _ => eapply YLog; typed
  | |- tsty _ (TEmb _ _ _ _) _ => eapply YEmb; [typed|]
  end.
Lemma ext_typed : well_typed ext.
Proof.
  split; [|split].
  - constructor; [|constructor; [exact I|constructor; [exact I|constructor]]]. apply good_struct. split; [constructor; [intros [H|[]]; discriminate H|constructor; [intros []|constructor]]|]. constructor; [exact I|constructor; [exact I|constructor]].
  - eexists. split; [unfold ext; cbn [tbody targs]; typed; split; [reflexivity|exists W32; split; reflexivity]|unfold ext; cbn [tret tretty]; typed].
  - apply nodupb_ok. vm_compute. reflexivity.
Qed.
Definition show (o : outcome (@value_ bn254 * list (@entry bn254))) : option (list Z * list (Z * list Z)) := match o with Ok (v, lg) => Some (map fval (encode v : list (@F bn254)), map (fun e => (fst e, map fval (snd (zentry e) : list (@F bn254)))) lg) | _ => None end.
Definition args1 (a b0 b1 i x : Z) : list (@value_ bn254) := [VStruct [("a"%string, VField (of_Z a)); ("b"%string, VArray [VUint W32 b0; VUint W32 b1])]; VUint W32 i; VField (of_Z x)].
Definition fullt (p : @tprog bn254) : bool := match flatten p with Some z => fullb z | None => false end.
Definition run_typed (p : @tprog bn254) (vs : list (@value_ bn254)) : option (list (option Z)) := match flatten p with Some z => run_full z (map fval (encode_values vs)) | None => None end.
Example C46_nonvacuous : well_typed ext /\ uncast ext /\ Forall2 has_type (args1 6 5 7 1 2) (map pty (targs ext)) /\ flatten ext <> None /\
  show (trun ext (args1 6 5 7 1 2)) = Some ([9; 8], [(7, [4])]) /\ run_typed ext (args1 6 5 7 1 2) = Some [Some 9; Some 8] /\
  show (trun ext (args1 6 5 7 0 2)) = Some ([7; 5], [(7, [4])]) /\ run_typed ext (args1 6 5 7 0 2) = Some [Some 7; Some 5].
Proof.
  split; [exact ext_typed|]. split; [|split].
  - unfold uncast, ext. cbn [tbody tret]. vm_compute. repeat (split; [first [exact I|intros H; discriminate H|idtac]|]); try exact I; repeat (split; try exact I); try (intros H; discriminate H).
  - cbn [map ext targs pty fst snd args1]. constructor; [apply type_struct; constructor; [split; [reflexivity|exact I]|constructor; [split; [reflexivity|]|constructor]]|constructor; [|constructor; [exact I|constructor]]].
    + apply type_array. split; [reflexivity|]. constructor; [|constructor; [|constructor]]; (split; [reflexivity|split; [apply Z.leb_le|apply Z.ltb_lt]; vm_compute; reflexivity]).
    + split; [reflexivity|split; [apply Z.leb_le|apply Z.ltb_lt]; vm_compute; reflexivity].
  - split; [assert (H : fullt ext = true) by (vm_compute; reflexivity); unfold fullt in H; destruct (flatten ext); [intros X; discriminate X|discriminate H]|]. split; [vm_compute; reflexivity|]. split; [vm_compute; reflexivity|]. split; vm_compute; reflexivity.
Qed.
Example C47_nonvacuous : exists z p1 p' c, built ext z p1 p' c /\ closed_prog p1 = true /\ max_ok_prog p' /\ cache_clean p' /\ unpacks_checked p' /\ cache_safe p' /\ (131 <= @required_bits bn254)%nat.
Proof.
  assert (H : fullt ext = true) by (vm_compute; reflexivity). unfold fullt in H. destruct (flatten ext) as [z|] eqn:E; [|discriminate H]. exists z. unfold fullb in H. destruct (propagate z) as [p1|] eqn:Ep; [|discriminate H]. exists p1. apply andb_prop in H as [H0 H]. destruct (analyse p1) as [p'|] eqn:Ea; [|discriminate H]. exists p'.
  destruct (compile p') as [c|] eqn:Ec; [|rewrite andb_false_r in H; discriminate H]. exists c. rewrite andb_true_r in H. apply andb_prop in H as [H1 H2]. pose proof (cleanb_checked p' H2) as Hu. destruct (cleanb_ok p' H2) as [A B].
  split; [split; [exact E|split; [exact Ep|split; [exact Ea|exact Ec]]]|]. split; [exact H0|]. split; [apply max_ok_progb_ok; exact H1|]. split; [exact A|]. split; [exact Hu|]. split; [exact B|]. apply Nat.leb_le. vm_compute. reflexivity.
Qed.
(** an assertion of the main function that fails *)
Example C47_asserts_nonvacuous : assert_fails ext (args1 6 5 7 1 0) /\ run_typed ext (args1 6 5 7 1 0) = None.
Proof.
  split; [|vm_compute; reflexivity]. exists []. do 6 eexists. split; [reflexivity|]. split; [reflexivity|]. cbn [teval obnd teval_list fst snd of_opt tbind targs ext args1 tupd Z.eqb Pos.eqb sem_op value_eqb].
  replace (fval (of_Z 0 : @F bn254) =? fval (f0 : @F bn254)) with true by (vm_compute; reflexivity). reflexivity.
Qed.

(** ** What flattening does not keep *)
(** Undefined operations in components that are not used: def main(private field x) -> field { return (1 / x, x + 2).1; } is undefined at 0
    and the circuit accepts it. *)
Definition p_lazy : @tprog bn254 := mkTProg [(1, CField, true)] [] (TOp (OElt [CField; CField] 1) [TOp OTup [TOp (OFBin FDiv) [TOp (OFVal f1) []; TId CField 1]; TOp (OFBin FAdd) [TId CField 1; TOp (OFVal (of_Z 2)) []]]]) CField.
(** ... and a selection at an index that is not known in an array without elements, or whose elements are empty, stops the compiler:
    def main(private field[0][3] a, private u32 i) -> field[0] { return a[i]; } *)
Definition p_empty : @tprog bn254 := mkTProg [(1, CArray (CArray CField 0) 3, true); (2, CUint W32, true)] [] (TOp (OSel (CArray CField 0)) [TId (CArray (CArray CField 0) 3) 1; TId (CUint W32) 2]) (CArray CField 0).
Theorem C46_unused_components_refuted : well_typed p_lazy /\ trun p_lazy [VField f0] = Stuck /\ run_typed p_lazy [VField f0] = Some [Some 2].
Proof.
  split; [|split; [|vm_compute; reflexivity]].
  - split; [constructor; [exact I|constructor]|]. split; [|apply nodupb_ok; vm_compute; reflexivity]. eexists. split; [unfold p_lazy; cbn [tbody targs]; typed|unfold p_lazy; cbn [tret tretty]; typed].
  - unfold trun, p_lazy. cbn [targs tbody tret tbind texecs texec_list obnd snd fst teval teval_list sem_op of_opt tupd Z.eqb Pos.eqb sem_fop]. rewrite Feqb_refl. reflexivity.
Qed.
Print Assumptions C46_unused_components_refuted.
Theorem C46_empty_elements_refuted : well_typed p_empty /\ flatten p_empty = None /\ (exists v lg, trun p_empty [VArray [VArray []; VArray []; VArray []]; VUint W32 1] = Ok (v, lg)).
Proof.
  split; [|split; [vm_compute; reflexivity|]].
  - split; [constructor; [exact I|constructor; [exact I|constructor]]|]. split; [|apply nodupb_ok; vm_compute; reflexivity]. eexists. split; [unfold p_empty; cbn [tbody targs]; typed|unfold p_empty; cbn [tret tretty]; typed].
  - eexists. eexists. unfold trun, p_empty. cbn. reflexivity.
Qed.
Print Assumptions C46_empty_elements_refuted.
