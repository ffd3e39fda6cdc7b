(** Property theorems: constant propagation (C39) and compilation from before it (C41).
    Reading guide. [prop C e] (ZProp.v): the folded expression, [None] for a compilation error; C holds the identifiers known to be
    constant. [propagate] (ZProp.v): the pass on programs. [fresh_prog p]: a definition may redefine an identifier, but the
    identifiers defined in a conditional statement are defined nowhere before, and a built-in call does not read what it defines;
    this holds if every identifier is defined once ([ssa_prog p]). [closed_prog p']: every
    identifier read in p' is a parameter or defined earlier (a computable check of the output: when a branch with a constant
    condition is dropped, whatever it defined must not be read). [ends_return]: the return statement is last, no other.
    [sublog a b]: a is b with entries left out. [logs_outside_ifs]: no log statement inside an if statement. *)
From Coq Require Import ZArith NArith List Bool Lia.
From Verif Require Import PField SMap IR IRSpec Wf Interp Optimizer OptimizerProofs OptPipeline OptExtra Bits Flat FlatProofs Zir Codegen CgBase CgGadgets CgExpr CgStmt CgEmit CgProg CgWf CgEnd
  InterpProofs PropIR Concrete Primality CgExamples CgCheck PropCodegen PropCompile UintOpt UintOptProofs UintRaw UintCheck PropUint Panic DeadCode Source NoFail PropSource ZProp ZPropVars ZPropStmt ZPropType.
Import ListNotations.
Open Scope Z_scope.

(** Folding an expression that has a value does not fail and keeps the value. *)
Theorem C39_expressions : forall (PF : PrimeField) e (S : senv) (C : cenv) (rho : env_s) t v, has_ty S e t ->
  (forall x u w, S x = Some u -> rho x = Some w -> vtr w u) ->
  (forall x c, C x = Some c -> is_const c = true /\ sem rho c = rho x) ->
  sem rho e = Some v -> exists e', prop C e = Some e' /\ sem rho e' = Some v.
Proof. intros PF e S C rho t v H1 H2 H3 H4. exact (prop_ok e S C rho t v H1 H2 H3 H4). Qed.
Print Assumptions C39_expressions.
(** A program that runs successfully is not rejected; the output returns the same values, and the same logs except those of
    dropped branches. *)
Theorem C39_programs : forall (PF : PrimeField) p inputs rets logs, sty_prog p -> ends_return p -> fresh_prog p -> sem_prog p inputs = Some (rets, logs) ->
  exists p', propagate p = Some p' /\ (closed_prog p' = true -> exists logs', sem_prog p' inputs = Some (rets, logs') /\ sublog logs' logs).
Proof.
  intros PF p inputs rets logs H1 H2 H3 H4. destruct (propagate_sem false p inputs rets logs H1 H2 H3) as [p' [A [_ [_ B]]]]; [intros X; discriminate X|exact H4|]. exists p'. auto.
Qed.
Print Assumptions C39_programs.
Theorem C39_logs : forall (PF : PrimeField) p p' inputs r, sty_prog p -> ends_return p -> fresh_prog p -> logs_outside_ifs p -> propagate p = Some p' -> closed_prog p' = true ->
  sem_prog p inputs = Some r -> sem_prog p' inputs = Some r.
Proof.
  intros PF p p' inputs [rets logs] H1 H2 H3 H4 H5 H6 H7. destruct (propagate_sem true p inputs rets logs H1 H2 H3) as [q [A [_ [_ B]]]]; [auto|exact H7|]. rewrite H5 in A. injection A as <-. destruct (B H6) as [logs' [X ->]]. exact X.
Qed.
Print Assumptions C39_logs.
(** A compilation error is reported only for programs that fail on every input. *)
Theorem C39_errors : forall (PF : PrimeField) p, sty_prog p -> ends_return p -> fresh_prog p -> propagate p = None -> forall inputs, sem_prog p inputs = None.
Proof.
  intros PF p H1 H2 H3 H4 inputs. destruct (sem_prog p inputs) as [[rets logs]|] eqn:E; [|reflexivity]. destruct (C39_programs PF p inputs rets logs H1 H2 H3 E) as [p' [A _]]. rewrite H4 in A. discriminate A.
Qed.
Print Assumptions C39_errors.
(** The output is typed and in the form the following passes need. *)
Theorem C39_output : forall (PF : PrimeField) p p', sty_prog p -> ends_return p -> fresh_prog p -> propagate p = Some p' -> closed_prog p' = true ->
  sty_prog p' /\ ends_return p' /\ no_pow0_prog p' /\ (scoped_prog p -> scoped_prog p') /\ (no_cast_prog p -> no_cast_prog p').
Proof.
  intros PF p p' H1 H2 H3 H4 H5. destruct (propagate_shape p p' H4) as [_ [_ [A [B [C D]]]]]. split; [eapply propagate_sty; eauto|]. auto.
Qed.
Print Assumptions C39_output.

(** C41, starting before constant propagation *)
Theorem C41_propagated_sound : forall (PF : PrimeField) p p1 p' c (w : env), (3 <= required_bits)%nat -> sty_prog p -> ends_return p -> fresh_prog p -> scoped_prog p -> no_cast_prog p ->
  propagate p = Some p1 -> closed_prog p1 = true -> analyse p1 = Some p' -> max_ok_prog p' -> compile p' = Some c -> unpacks_checked p' -> cache_safe p' -> satisfies w c ->
  forall rets logs, sem_prog p (map (fun q => w (pid q)) (pargs c)) = Some (rets, logs) ->
  rets = map (fun i => w (vpub i)) (seq 0 (zret p)) /\ sublog (logs_of w (flat_stmts (pstmts c))) logs.
Proof.
  intros PF p p1 p' c w Hr Ht He Hs Hsc Hn Hp Hc Ha Hm Hcomp Hu Hca Hsat rets logs R. destruct (C39_output PF p p1 Ht He Hs Hp Hc) as [T1 [_ [N1 [S1 C1]]]].
  destruct (propagate_sem false p _ rets logs Ht He Hs (fun X => match Bool.diff_false_true X with end) R) as [q [A [_ [Er B]]]]. rewrite Hp in A. injection A as <-. destruct (B Hc) as [logs' [X Y]].
  pose proof (C41_source_sound PF p1 p' c w Hr T1 (S1 Hsc) (C1 Hn) N1 Ha Hm Hcomp Hu Hca Hsat _ X) as Z. injection Z as -> ->. rewrite Er. split; [reflexivity|exact Y].
Qed.
Print Assumptions C41_propagated_sound.
Theorem C41_propagated_complete : forall (PF : PrimeField) ext p (inputs : list F) rets logs, (3 <= required_bits)%nat -> sty_prog p -> ends_return p -> fresh_prog p -> scoped_prog p ->
  sem_prog p inputs = Some (rets, logs) ->
  exists p1, propagate p = Some p1 /\ (closed_prog p1 = true ->
  exists p', analyse p1 = Some p' /\ (max_ok_prog p' -> cache_clean p' -> forall c, compile p' = Some c ->
  exists w logs', exec_prog (exec_solver ext) (pargs c) (flat_stmts (pstmts c)) inputs = Done w logs' /\
    map (fun i => sget (vpub i) w) (seq 0 (zret p)) = map Some rets /\ sublog logs' logs)).
Proof.
  intros PF ext p inputs rets logs Hr Ht He Hs Hsc R. destruct (propagate_sem false p _ rets logs Ht He Hs (fun X => match Bool.diff_false_true X with end) R) as [p1 [A [_ [Er B]]]]. exists p1. split; [exact A|]. intros Hc.
  destruct (C39_output PF p p1 Ht He Hs A Hc) as [T1 [E1 [N1 [S1 _]]]]. destruct (B Hc) as [logs' [X Y]].
  destruct (C41_source_complete PF ext p1 inputs rets logs' Hr T1 (S1 Hsc) E1 N1 X) as [p' [P Q]]. exists p'. split; [exact P|]. intros Hm Hcl c Hcomp. destruct (Q Hm Hcl c Hcomp) as [w [W1 W2]]. exists w, logs'. rewrite Er in W2. auto.
Qed.
Print Assumptions C41_propagated_complete.

(** ** Programs over the BN254 scalar field *)
(** def main(private field x, private u32 n) -> (field, u32) {
      field y = 3; bool t = y < 5; if t { field z = x * y; log(z); } else { field w = x + 1; log(w); }
      assert(t); field r = t ? z : w; return (r ** 1 + 0 * x, (n + 0) ^ ((7 << 2) & 12)); } *)
Definition exf : @zprog bn254 :=
  mkZProg [mkZParam 1 PF_ true; mkZParam 2 (PU_ 32) true]
    [ZDef 3 (ZFVal (of_Z 3)); ZDef 4 (ZCmp CFLt (ZId KF 3) (ZFVal (of_Z 5)));
     ZIf (ZId KB 4) [ZDef 5 (ZFBin FMul (ZId KF 1) (ZId KF 3)); ZLog 1 [ZId KF 5]] [ZDef 6 (ZFBin FAdd (ZId KF 1) (ZFVal (of_Z 1))); ZLog 2 [ZId KF 6]];
     ZAssert (ZId KB 4) 0; ZDef 7 (ZCond KF (ZId KB 4) (ZId KF 5) (ZId KF 6));
     ZReturn [ZFBin FAdd (ZPow (ZId KF 7) 1) (ZFBin FMul (ZFVal (of_Z 0)) (ZId KF 1));
              ZUBin (W 32) UXor (ZUBin (W 32) UAdd (uid 32 2) (ulit 32 0)) (ZUBin (W 32) UAnd (ZShl (W 32) (ulit 32 7) 2) (ulit 32 12))]] 2.
Definition nodupb (l : list ident) : bool := (fix go l := match l with [] => true | x :: r => negb (inb x r) && go r end) l.
Lemma nodupb_ok : forall l, nodupb l = true -> NoDup l.
Proof. induction l as [|x l IH]; intros H; constructor; cbn in H; apply andb_prop in H as [A B]; auto. apply negb_true_iff in A. apply inb_no. exact A. Qed.
Definition folded (p : @zprog bn254) : option (list zstmt) := match propagate p with Some q => Some (zbody q) | None => None end.
Example C39_nonvacuous : sty_prog exf /\ ends_return exf /\ ssa_prog exf /\ source_result exf [7; 30] = Some [21; 18] /\
  match propagate exf with Some q => closed_prog q && Nat.eqb (length (zbody q)) 4 && match source_result q [7; 30] with Some [a; b] => (a =? 21) && (b =? 18) | _ => false end | None => false end = true.
Proof.
  split; [apply sty_progb_ok; vm_compute; reflexivity|]. split; [apply ends_returnb_ok; vm_compute; reflexivity|]. split; [apply nodupb_ok; vm_compute; reflexivity|]. split; vm_compute; reflexivity.
Qed.
(** def main(private field x) -> field { field y = 3; field z = x + y; y = z * z; z = 5; y = y + z; x = y - z; return x + z; } *)
Definition exr : @zprog bn254 :=
  mkZProg [mkZParam 1 PF_ true]
    [ZDef 2 (ZFVal (of_Z 3)); ZDef 3 (ZFBin FAdd (ZId KF 1) (ZId KF 2)); ZDef 2 (ZFBin FMul (ZId KF 3) (ZId KF 3)); ZDef 3 (ZFVal (of_Z 5));
     ZDef 2 (ZFBin FAdd (ZId KF 2) (ZId KF 3)); ZDef 1 (ZFBin FSub (ZId KF 2) (ZId KF 3)); ZReturn [ZFBin FAdd (ZId KF 1) (ZId KF 3)]] 1.
Example C39_redefined_nonvacuous : sty_prog exr /\ ends_return exr /\ fresh_prog exr /\ ~ ssa_prog exr /\ source_result exr [7] = Some [105] /\
  match propagate exr with Some q => closed_prog q && Nat.eqb (length (zbody q)) 5 && match source_result q [7] with Some [a] => a =? 105 | _ => false end | None => false end = true.
Proof.
  split; [apply sty_progb_ok; vm_compute; reflexivity|]. split; [apply ends_returnb_ok; vm_compute; reflexivity|]. split; [repeat split|]. split; [|split; vm_compute; reflexivity].
  intros H. vm_compute in H. inversion H as [|? ? H1 _]; subst. apply H1. right. right. right. right. right. left. reflexivity.
Qed.
Definition fullb (p : @zprog bn254) : bool := match propagate p with Some p1 => closed_prog p1 && match analyse p1 with Some p' => max_ok_progb p' && cleanb p' && match compile p' with Some _ => true | None => false end | None => false end | None => false end.
Example C41_propagated_nonvacuous : exists p1 p' c, propagate exf = Some p1 /\ closed_prog p1 = true /\ analyse p1 = Some p' /\ max_ok_prog p' /\ cache_clean p' /\ unpacks_checked p' /\ cache_safe p' /\ compile p' = Some c.
Proof.
  assert (H : fullb exf = true) by (vm_compute; reflexivity). unfold fullb in H. destruct (propagate exf) as [p1|]; [|discriminate H]. exists p1. apply andb_prop in H as [H0 H]. destruct (analyse p1) as [p'|]; [|discriminate H]. exists p'.
  destruct (compile p') as [c|]; [|rewrite andb_false_r in H; discriminate H]. exists c. rewrite andb_true_r in H. apply andb_prop in H as [H1 H2]. pose proof (cleanb_checked p' H2) as Hu. destruct (cleanb_ok p' H2) as [A B].
  split; [reflexivity|]. split; [exact H0|]. split; [reflexivity|]. split; [apply max_ok_progb_ok; exact H1|]. split; [exact A|]. split; [exact Hu|]. split; [exact B|reflexivity].
Qed.
(** Failures are not kept: def main(private field x) -> field { return 0 * (1 / x); } fails at 0 and is folded to 0; and
    def main(private field x) -> field { if false { assert(x == 1) } else {}; return x }, where the assertion is checked in every
    branch if the condition is not a constant, accepts 2. *)
Definition p_zero : @zprog bn254 := mkZProg [mkZParam 1 PF_ true] [ZReturn [ZFBin FMul (ZFVal (of_Z 0)) (ZFBin FDiv (ZFVal (of_Z 1)) (ZId KF 1))]] 1.
Definition p_drop : @zprog bn254 := mkZProg [mkZParam 1 PF_ true] [ZIf (ZBVal false) [ZAssert (ZCmp CFEq (ZId KF 1) (ZFVal (of_Z 1))) 0] []; ZReturn [ZId KF 1]] 1.
Definition p_dyn : @zprog bn254 := mkZProg [mkZParam 1 PF_ true] [ZIf (ZCmp CFEq (ZId KF 1) (ZFVal (of_Z 1))) [ZAssert (ZCmp CFEq (ZId KF 1) (ZFVal (of_Z 1))) 0] []; ZReturn [ZId KF 1]] 1.
Definition run_full (p : @zprog bn254) (inputs : list Z) : option (list (option Z)) := match propagate p with Some q => run_source q inputs | None => Some [] end.
Theorem C39_failures_refuted : exists (p q : @zprog bn254), sty_prog p /\ sty_prog q /\ ssa_prog p /\ ssa_prog q /\
  source_result p [0] = None /\ run_full p [0] = Some [Some 0] /\ source_result q [2] = None /\ run_full q [2] = Some [Some 2] /\
  run_full p_dyn [2] = None.
Proof.
  exists p_zero, p_drop. split; [apply sty_progb_ok; vm_compute; reflexivity|]. split; [apply sty_progb_ok; vm_compute; reflexivity|]. split; [apply nodupb_ok; vm_compute; reflexivity|]. split; [apply nodupb_ok; vm_compute; reflexivity|].
  split; [vm_compute; reflexivity|]. split; [vm_compute; reflexivity|]. split; [vm_compute; reflexivity|]. split; vm_compute; reflexivity.
Qed.
Print Assumptions C39_failures_refuted.
