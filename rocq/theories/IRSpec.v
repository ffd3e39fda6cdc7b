(** Specification: what it means for an assignment to satisfy an R1CS program.
    Independent of the model's helper functions. *)
From Coq Require Import ZArith List.
From Verif Require Import PField IR.
Import ListNotations.

Section Spec.
Context {PF : PrimeField}.

(** An assignment gives a field element to every variable. *)
Definition env := var -> F.

(** Value of sum_i c_i * v_i. *)
Fixpoint eval_lin (w : env) (l : lincomb) : F :=
  match l with
  | [] => f0
  | (v, c) :: r => fadd (fmul c (w v)) (eval_lin w r)
  end.
Definition eval_quad (w : env) (q : quadcomb) : F := fmul (eval_lin w (qleft q)) (eval_lin w (qright q)).

(** left * right = lin; directives and logs impose nothing. *)
Definition sat_stmt (w : env) (s : stmt) : Prop :=
  match s with
  | Constraint q l _ => eval_quad w q = eval_lin w l
  | Directive _ _ _ => True
  | Log _ _ => True
  end.
Definition sat (w : env) (ss : list stmt) : Prop := Forall (sat_stmt w) ss.

(** The statements of a program, assembly blocks being transparent. *)
Definition flat_stmts (ss : list bstmt) : list stmt :=
  flat_map (fun b => match b with Single s => [s] | Block l => l end) ss.

(** An assignment satisfies a program: ~one is 1 and all constraints hold. *)
Definition satisfies (w : env) (p : prog) : Prop := w vone = f1 /\ sat w (flat_stmts (pstmts p)).

(** An assignment follows the directives: their outputs are what the solver returns. *)
Definition follows_stmt (solve : solver -> list F -> option (list F)) (w : env) (s : stmt) : Prop :=
  match s with
  | Directive outs sv ins => solve sv (map (eval_quad w) ins) = Some (map w outs)
  | _ => True
  end.
Definition follows solve w ss := Forall (follows_stmt solve w) ss.

(** What the log statements print under an assignment. *)
Definition logs_of (w : env) (ss : list stmt) : list (BinInt.Z * list F) :=
  flat_map (fun s => match s with Log f es => [(f, map (eval_lin w) es)] | _ => [] end) ss.

(** Variables occurring in expressions. *)
Definition lc_vars (l : lincomb) : list var := map fst l.
Definition q_vars (q : quadcomb) : list var := lc_vars (qleft q) ++ lc_vars (qright q).
Definition stmt_vars (s : stmt) : list var :=
  match s with
  | Constraint q l _ => q_vars q ++ lc_vars l
  | Directive outs _ ins => flat_map q_vars ins ++ outs
  | Log _ es => flat_map lc_vars es
  end.
End Spec.
