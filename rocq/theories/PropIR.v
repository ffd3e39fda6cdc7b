(** Property theorems: interpreter (C01, C02), expressions (C03, C04), optimiser (C06-C11).
    Vocabulary: IRSpec.v (satisfaction), Wf.v (def_before_use), OptPipeline.v ([interface]: ~one, arguments, returns). *)
From Coq Require Import ZArith List Bool Sorted.
From Verif Require Import PField SMap IR IRSpec Wf IRProofs Interp InterpProofs Optimizer OptimizerProofs OptPipeline
  OptExtra Concrete Refutations1 PropIRLemmas.
Import ListNotations.
Open Scope Z_scope.

(** C01 *)
Theorem C01_execution_satisfies : forall (PF : PrimeField) (solve : solver -> list F -> option (list F))
  args ss (inputs : list F) w log,
  NoDup (vone :: map pid args) -> fresh_outs (vone :: map pid args) ss ->
  exec_prog solve args ss inputs = Done w log ->
  sget vone w = Some f1 /\ map (fun a => sget (pid a) w) args = map Some inputs /\
  sat (env_of w) ss /\ (forall s v, In s ss -> In v (stmt_vars s) -> exists x, sget v w = Some x).
Proof. exact exec_satisfies. Qed.
Print Assumptions C01_execution_satisfies.
Example C01_nonvacuous : NoDup (vone :: map pid ex_args) /\
  fresh_outs (vone :: map pid ex_args) ex_prog /\ show_outs (exec_prog slv ex_args ex_prog [k 3]) = Some [64; 0].
Proof. exact ex_c01. Qed.

(** C02 *)
Theorem C02_wrong_input_count : forall (PF : PrimeField) (solve : solver -> list F -> option (list F))
  args ss (inputs : list F) e r,
  exec_prog solve args ss inputs = WrongInputCount e r <->
  (length args <> length inputs /\ e = length args /\ r = length inputs).
Proof. exact exec_count. Qed.
Print Assumptions C02_wrong_input_count.
Theorem C02_unsatisfied_only_if_violated : forall (PF : PrimeField) (solve : solver -> list F -> option (list F))
  args ss (inputs : list F) e,
  exec_prog solve args ss inputs = Unsatisfied e ->
  exists pre q l post w log, ss = pre ++ Constraint q l e :: post /\
    exec_prog solve args pre inputs = Done w log /\
    (forall v, In v (q_vars q ++ lc_vars l) -> exists x, sget v w = Some x) /\
    ~ sat_stmt (env_of w) (Constraint q l e).
Proof. exact exec_prog_unsat. Qed.
Print Assumptions C02_unsatisfied_only_if_violated.
Theorem C02_execution_complete : forall (PF : PrimeField) (solve : solver -> list F -> option (list F))
  args ss (inputs : list F) (w : env),
  def_before_use args ss = true -> NoDup (vone :: map pid args) -> length args = length inputs ->
  w vone = f1 -> map (fun a => w (pid a)) args = inputs -> sat w ss -> follows solve w ss ->
  exists w', exec_prog solve args ss inputs = Done w' (logs_of w ss) /\
    (forall v x, sget v w' = Some x -> x = w v) /\
    (forall s v, In s ss -> In v (stmt_vars s) -> sget v w' = Some (w v)).
Proof. exact exec_prog_complete. Qed.
Print Assumptions C02_execution_complete.
Theorem C02_no_panic : forall (PF : PrimeField) ext args ss (inputs : list F),
  NoDup (vone :: map pid args) -> def_before_use args ss = true ->
  exec_prog (exec_solver ext) args ss inputs <> Panic.
Proof. exact exec_builtin_no_panic. Qed.
Print Assumptions C02_no_panic.
Example C02_nonvacuous : NoDup (vone :: map pid ex_args) /\ def_before_use ex_args ex_prog = true /\
  exists w, w vone = f1 /\ map (fun a => w (pid a)) ex_args = [k 3] /\ sat w ex_prog /\ follows slv w ex_prog.
Proof. exact ex_c02. Qed.

(** C03 *)
Theorem C03_canonical_form : forall (PF : PrimeField) (l : lincomb),
  StronglySorted Z.lt (map fst (lc_canon l)) /\ Forall (fun vc => snd vc <> f0) (lc_canon l) /\
  (forall w, eval_lin w (lc_canon l) = eval_lin w l).
Proof. exact canon_normal. Qed.
Print Assumptions C03_canonical_form.
Theorem C03_canonical_unique : forall (PF : PrimeField) (l1 l2 : lincomb),
  lc_canon l1 = lc_canon l2 <-> (forall w : env, w vone = f1 -> eval_lin w l1 = eval_lin w l2).
Proof. exact @lc_canon_iff. Qed.
Print Assumptions C03_canonical_unique.

(** C04 *)
Theorem C04_linearity_exact : forall (PF : PrimeField) (w : env), w vone = f1 ->
  (forall q l, q_try_linear q = Some l -> eval_quad w q = eval_lin w l) /\
  (forall l x, lc_try_constant l = Some x -> eval_lin w l = x) /\
  (forall l v x, lc_try_summand l = Some (v, x) -> eval_lin w l = fmul x (w v)).
Proof. exact linearity_exact. Qed.
Print Assumptions C04_linearity_exact.
(** ... and for canonical operands nothing linear is missed. *)
Theorem C04_linearity_complete : forall (PF : PrimeField) (a b : lincomb) (l : lincomb), 2 < pp ->
  (forall w : env, w vone = f1 -> eval_quad w (mkQ (lc_canon a) (lc_canon b)) = eval_lin w l) ->
  exists l', q_try_linear (mkQ (lc_canon a) (lc_canon b)) = Some l'.
Proof. exact linearity_complete. Qed.
Print Assumptions C04_linearity_complete.

(** C06 *)
Theorem C06_tautology_preserves : forall (PF : PrimeField) (w : env) (bs out : list bstmt) st,
  w vone = f1 -> run_bpass (bstep taut_step) tt bs = Some (st, out) ->
  (sat w (flat_stmts out) <-> sat w (flat_stmts bs)).
Proof. exact taut_preserves. Qed.
Print Assumptions C06_tautology_preserves.
Theorem C06_canonicalizer_preserves : forall (PF : PrimeField) (w : env) (bs out : list bstmt) st,
  run_bpass (bstep canon_pass_step) tt bs = Some (st, out) ->
  (sat w (flat_stmts out) <-> sat w (flat_stmts bs)).
Proof. exact canon_preserves. Qed.
Print Assumptions C06_canonicalizer_preserves.
Theorem C06_passes_total : forall (PF : PrimeField) (bs : list bstmt),
  (exists out, run_bpass (bstep taut_step) tt bs = Some (tt, out)) /\
  (exists out, run_bpass (bstep canon_pass_step) tt bs = Some (tt, out)).
Proof. exact stateless_total. Qed.
Print Assumptions C06_passes_total.

(** C07 *)
Theorem C07_redefinition_sound : forall (PF : PrimeField) (solve : solver -> list F -> option (list F))
  args ret ss st out,
  def_before_use args ss = true ->
  run_pass (redef_step solve false) (redef_init args ret) ss = Some (st, out) ->
  forall w : env, w vone = f1 -> sat w out ->
  exists w0, w0 vone = f1 /\ sat w0 ss /\ (forall v, interface args ret v -> w0 v = w v).
Proof. exact redef_sound. Qed.
Print Assumptions C07_redefinition_sound.
Theorem C07_redefinition_complete : forall (PF : PrimeField) (solve : solver -> list F -> option (list F))
  args ret ss st out,
  def_before_use args ss = true ->
  run_pass (redef_step solve false) (redef_init args ret) ss = Some (st, out) ->
  def_before_use args out = true /\
  forall w : env, w vone = f1 -> sat w ss -> follows solve w ss ->
  sat w out /\ follows solve w out /\ logs_of w out = logs_of w ss.
Proof. exact redef_complete. Qed.
Print Assumptions C07_redefinition_complete.
Example C07_nonvacuous : exists st out,
  run_pass (redef_step slv false) (redef_init ex_args 2) ex_prog = Some (st, out) /\ length out = 9%nat.
Proof. exact ex_c07. Qed.

(** C08: false for assembly blocks: a satisfying assignment of the optimised program whose inputs and returns
    the original rejects, and inputs on which the original runs and the optimised program panics. *)
Theorem C08_redefinition_blocks_refuted : exists (p p' : @prog pf97) (w : env),
  def_before_use (pargs p) (flat_stmts (pstmts p)) = true /\
  (forall a b, In a (flat_stmts (pstmts p)) -> In b (flat_stmts (pstmts p)) ->
     index_of (flat_stmts (pstmts p)) a = index_of (flat_stmts (pstmts p)) b -> strip a = strip b) /\
  optimize slv (index_of (flat_stmts (pstmts p))) p = Some p' /\ satisfies w p' /\
  (forall w0, satisfies w0 p -> exists v, interface (pargs p) (pret p) v /\ w0 v <> w v) /\
  exists inputs : list F,
    (exists w1 log, exec_prog slv (pargs p) (clean (pstmts p)) inputs = Done w1 log) /\
    exec_prog slv (pargs p') (clean (pstmts p')) inputs = Panic.
Proof. exact asm_refuted. Qed.
Print Assumptions C08_redefinition_blocks_refuted.

(** C09 *)
Theorem C09_directive_merge : forall (PF : PrimeField) (solve : solver -> list F -> option (list F))
  args ss st out,
  def_before_use args ss = true -> run_pass dir_step dir_init ss = Some (st, out) ->
  def_before_use args out = true /\
  (forall w : env, w vone = f1 -> sat w out -> exists w0, sat w0 ss /\
     (forall v, v = vone \/ In v (map pid args) \/ is_output v = true -> w0 v = w v)) /\
  (forall w : env, w vone = f1 -> sat w ss -> follows solve w ss ->
     sat w out /\ follows solve w out /\ logs_of w out = logs_of w ss).
Proof. exact directive_merge. Qed.
Print Assumptions C09_directive_merge.

(** C10 *)
Theorem C10_duplicates_constraints : forall (PF : PrimeField) (hash : stmt -> Z) (bs out : list bstmt) st,
  (forall a b, In a (flat_stmts bs) -> In b (flat_stmts bs) -> hash a = hash b -> strip a = strip b) ->
  run_bpass (dup_bstep hash) [] bs = Some (st, out) ->
  forall w : env, sat w (flat_stmts out) <-> sat w (flat_stmts bs).
Proof. exact duplicates_constraints. Qed.
Print Assumptions C10_duplicates_constraints.
Theorem C10_logs_refuted : exists (p p' : @prog pf97) (inputs : list F) w w' log log',
  optimize slv (index_of (flat_stmts (pstmts p))) p = Some p' /\
  exec_prog slv (pargs p) (clean (pstmts p)) inputs = Done w log /\
  exec_prog slv (pargs p') (clean (pstmts p')) inputs = Done w' log' /\ length log = 2%nat /\ length log' = 1%nat.
Proof. exact dup_logs_refuted. Qed.
Print Assumptions C10_logs_refuted.

(** C11 *)
Theorem C11_optimizer_sound : forall (PF : PrimeField) (solve : solver -> list F -> option (list F)) (hash : stmt -> Z)
  args ret ss s4 out,
  def_before_use args ss = true ->
  optimize_4 solve args ret ss = Some s4 ->
  (forall a b, In a s4 -> In b s4 -> hash a = hash b -> strip a = strip b) ->
  optimize_flat solve hash args ret ss = Some out ->
  forall w : env, w vone = f1 -> sat w out ->
  exists w0, w0 vone = f1 /\ sat w0 ss /\ (forall v, interface args ret v -> w0 v = w v).
Proof. exact optimizer_sound. Qed.
Print Assumptions C11_optimizer_sound.
Theorem C11_optimizer_executes : forall (PF : PrimeField) (solve : solver -> list F -> option (list F)) (hash : stmt -> Z)
  args ret ss (inputs : list F) w log,
  (forall s xs res, solve s xs = Some res -> length res = snd (solver_sig s)) ->
  def_before_use args ss = true -> NoDup (vone :: map pid args) ->
  exec_prog solve args ss inputs = Done w log ->
  exists s4, optimize_4 solve args ret ss = Some s4 /\
  ((forall a b, In a s4 -> In b s4 -> hash a = hash b -> strip a = strip b) ->
   exists out w' log', optimize_flat solve hash args ret ss = Some out /\
   exec_prog solve args out inputs = Done w' log' /\
   (forall v x, interface args ret v -> sget v w = Some x -> sget v w' = Some x) /\
   (forall e, In e log' <-> In e log)).
Proof. exact @optimize_exec. Qed.
Print Assumptions C11_optimizer_executes.
Theorem C11_flat_is_optimize : forall (PF : PrimeField) (solve : solver -> list F -> option (list F)) (hash : stmt -> Z)
  args ret ss,
  optimize solve hash (mkProg args ret (map Single ss)) =
  match optimize_flat solve hash args ret ss with
  | Some out => Some (mkProg args ret (map Single out))
  | None => None
  end.
Proof. exact optimize_is_flat. Qed.
Print Assumptions C11_flat_is_optimize.
Example C11_nonvacuous : exists s4 out, optimize_4 slv ex_args 2 ex_prog = Some s4 /\
  (forall a b, In a s4 -> In b s4 -> ex_hash a = ex_hash b -> strip a = strip b) /\
  optimize_flat slv ex_hash ex_args 2 ex_prog = Some out /\ length out = 7%nat /\
  show_outs (exec_prog slv ex_args out [k 3]) = Some [64; 0].
Proof. exact ex_c11. Qed.
