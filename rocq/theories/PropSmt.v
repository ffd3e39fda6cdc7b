(** C54: the SMT-LIB export of a compiled program says what its constraints say.
    The specification of SMT-LIB scripts, from their text, is SmtSpec.v; that of constraint systems is IRSpec.v. *)
From Coq Require Import String Ascii.
From Coq Require Import ZArith NArith List Bool Lia.
From Verif Require Import PField SMap Concrete Primality IR IRSpec Interp Str Circom SmtSpec Smt.
Import ListNotations.
Open Scope string_scope.
Open Scope list_scope.
Open Scope Z_scope.

(** A compiled program (compilation ends by removing the blocks) is exported. *)
Theorem C54_exported : forall (PF : PrimeField) (p : prog), exists t, smt_prog (mkProg (pargs p) (pret p) (map Single (clean (pstmts p)))) = Some t.
Proof.
  intros PF p. unfold smt_prog. cbn [pstmts]. assert (G : forall l : list stmt, exists t, smt_stmts (map Single l) = Some t).
  { induction l as [|s l [t IH]]; [exists ""; reflexivity|]. cbn [map smt_stmts]. rewrite IH. destruct s; eexists; reflexivity. }
  destruct (G (clean (pstmts p))) as [t ->]. eexists. reflexivity.
Qed.
Print Assumptions C54_exported.
(** The exported text is a script a solver accepts, whatever the interpretation of the symbols and of the remainder by zero; its models
    are the assignments of integers that give the prime and ~one their values and whose residues satisfy the constraints. *)
Theorem C54_models : forall (PF : PrimeField) (p : prog) t z0 (m : string -> Z), smt_prog p = Some t ->
  exists b, script z0 t m = Some b /\ (b = true <-> m "~prime" = pp /\ m "~one" = 1 /\ satisfies (fun v => of_Z (m (show_var v))) p).
Proof. intros PF p t z0 m H. exact (smt_meaning p t z0 m H). Qed.
Print Assumptions C54_models.
(** Every assignment that satisfies the constraints is a model: the export loses no solution. *)
Theorem C54_no_loss : forall (PF : PrimeField) (p : prog) t z0 (w : env), smt_prog p = Some t -> satisfies w p ->
  exists m, script z0 t m = Some true /\ forall v, m (show_var v) = fval (w v).
Proof.
  intros PF p t z0 w H Sw. set (m := fun s => if String.eqb s "~prime" then pp else fval (w (var_of s))). assert (E : forall v, m (show_var v) = fval (w v)).
  { intros v. unfold m. destruct (String.eqb (show_var v) "~prime") eqn:Q; [apply String.eqb_eq in Q; exfalso; exact (show_not_prime v Q)|]. rewrite var_of_show. reflexivity. }
  exists m. split; [|exact E]. destruct (smt_meaning p t z0 m H) as [b [-> B]]. f_equal. apply B. split; [reflexivity|]. split; [change "~one" with (show_var vone); rewrite E, (proj1 Sw); pose proof pp_gt1; unfold f1; rewrite fval_of_Z_small; lia|].
  assert (W : forall l, eval_lin (wit m) l = eval_lin w l) by (induction l as [|[v k] l IH]; [reflexivity|]; cbn [eval_lin]; rewrite IH; unfold wit; rewrite E, of_Z_fval; reflexivity). destruct Sw as [A B']. split; [unfold wit; rewrite E, of_Z_fval; exact A|].
  unfold sat in *. rewrite Forall_forall in *. intros s I. specialize (B' s I). destruct s; cbn [sat_stmt] in *; [|exact Logic.I|exact Logic.I]. unfold eval_quad in *. rewrite !W. exact B'.
Qed.
Print Assumptions C54_no_loss.
(** The constraints have a solution iff the script has a model. *)
Theorem C54_satisfiable : forall (PF : PrimeField) (p : prog) t z0, smt_prog p = Some t -> ((exists w : env, satisfies w p) <-> exists m, script z0 t m = Some true).
Proof.
  intros PF p t z0 H. split.
  - intros [w Sw]. destruct (C54_no_loss PF p t z0 w H Sw) as [m [M _]]. exists m. exact M.
  - intros [m M]. destruct (C54_models PF p t z0 m H) as [b [B C]]. rewrite M in B. injection B as <-. destruct (proj1 C eq_refl) as [_ [_ S]]. eexists. exact S.
Qed.
Print Assumptions C54_satisfiable.

(** x * x = out, 7 = 7 over bn254: the text, a model and an assignment that is not one *)
Definition exq : @prog bn254 := mkProg [mkParam 1 true] 1 [Single (Constraint (mkQ [(1, of_Z 1)] [(1, of_Z 1)]) [(-1, of_Z 1)] None); Single (Directive [2] SConditionEq [mkQ [(0, of_Z 1)] [(1, of_Z 1)]]); Single (Constraint (mkQ [(0, of_Z 1)] [(1, of_Z 1); (0, of_Z (-1))]) [] None)].
Definition nlc : string := String newline EmptyString.
Example C54_example :
  smt_prog exq = Some ("; Auto generated by ZoKrates" ++ nlc ++ "; Number of circuit variables: 4" ++ nlc ++ "; Number of equalities: 3" ++ nlc ++ "(declare-const |~prime| Int)" ++ nlc ++
    "(declare-const |~out_0| Int)" ++ nlc ++ "(declare-const |~one| Int)" ++ nlc ++ "(declare-const |_0| Int)" ++ nlc ++ "(declare-const |_1| Int)" ++ nlc ++ "(assert (and" ++ nlc ++
    "(= |~prime| 21888242871839275222246405745257275088548364400416034343698204186575808495617)" ++ nlc ++ "(= |~one| 1)" ++ nlc ++
    "(= (mod (* (* |_0| 1) (* |_0| 1)) |~prime|) (mod (* |~out_0| 1) |~prime|))" ++ nlc ++ nlc ++
    "(= (mod (* (* |~one| 1) (+ (* |_0| 1) (* |~one| 21888242871839275222246405745257275088548364400416034343698204186575808495616))) |~prime|) (mod 0 |~prime|))" ++ nlc ++ "))")%string.
Proof. vm_compute. reflexivity. Qed.
Definition model_of (x out : Z) (s : string) : Z := if String.eqb s "~prime" then 21888242871839275222246405745257275088548364400416034343698204186575808495617 else if String.eqb s "~one" then 1 else if String.eqb s "_0" then x else if String.eqb s "~out_0" then out else 0.
Example C54_runs : match smt_prog exq with Some t => script (fun _ => 0) t (model_of 1 1) = Some true /\ script (fun _ => 0) t (model_of 21888242871839275222246405745257275088548364400416034343698204186575808495618 1) = Some true /\ script (fun _ => 0) t (model_of 2 4) = Some false | None => False end.
Proof. vm_compute. repeat split; reflexivity. Qed.
