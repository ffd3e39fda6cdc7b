(** Specification: well-formedness notions for IR programs used in the statements of the theorems. *)
From Coq Require Import ZArith List Bool.
From Verif Require Import PField SMap IR IRSpec.
Import ListNotations.
Open Scope Z_scope.

Section Wf.
Context {PF : PrimeField}.

(** The total assignment of a witness map (variables without a value are 0). *)
Definition env_of (w : smap F) : env := fun v => match sget v w with Some x => x | None => f0 end.

(** Directives only write variables that have not occurred before (and are not written twice). *)
Fixpoint fresh_outs (seen : list var) (ss : list stmt) : Prop :=
  match ss with
  | [] => True
  | s :: r =>
      match s with
      | Directive outs _ ins => NoDup outs /\ forall o, In o outs -> ~ In o seen /\ ~ In o (flat_map q_vars ins)
      | _ => True
      end /\ fresh_outs (stmt_vars s ++ seen) r
  end.

Definition mem (v : var) (d : list var) : bool := existsb (Z.eqb v) d.
Definition subset (a d : list var) : bool := forallb (fun v => mem v d) a.
Fixpoint nodupb (l : list var) : bool := match l with [] => true | x :: r => negb (mem x r) && nodupb r end.

(** "Every variable is introduced before it is used": each statement either uses known variables only, or
    introduces one variable by a definition [quad = 1 * v], or introduces the outputs of a directive,
    which are fresh intermediate variables, in the number the solver's signature prescribes. *)
Definition intro (d : list var) (s : stmt) : option (list var) :=
  match s with
  | Constraint q l _ =>
      if subset (q_vars q) d then
        if subset (lc_vars l) d then Some d
        else match l with
             | [(v, c)] => if Feqb c f1 then Some (v :: d) else None
             | _ => None
             end
      else None
  | Directive outs sv ins =>
      if subset (flat_map q_vars ins) d && nodupb outs && forallb (fun o => negb (mem o d) && negb (is_output o)) outs
         && Nat.eqb (length ins) (fst (solver_sig sv)) && Nat.eqb (length outs) (snd (solver_sig sv))
      then Some (outs ++ d) else None
  | Log _ es => if subset (flat_map lc_vars es) d then Some d else None
  end.
Fixpoint intro_all (d : list var) (ss : list stmt) : option (list var) :=
  match ss with
  | [] => Some d
  | s :: r => match intro d s with Some d' => intro_all d' r | None => None end
  end.
Definition def_before_use (args : list param) (ss : list stmt) : bool :=
  match intro_all (vone :: map pid args) ss with Some _ => true | None => false end.

End Wf.
