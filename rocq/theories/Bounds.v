(** The check of constant indices.
    Models: zokrates_analysis/src/out_of_bounds.rs l.19-78 (OutOfBoundsChecker), which runs after VariableWriteRemover and the check of the
    constant arguments (zokrates_analysis/src/lib.rs l.187-193). The default traversal of result_folder.rs visits every expression and statement.
    Simplification: built-in calls and logs are statements here, as in Typed.v. *)
From Coq Require Import String Ascii.
From Coq Require Import ZArith NArith List Bool Lia.
From Verif Require Import PField Interp Bits Zir UintOpt Str Abi Typed Flatten Writes WritesVal.
Import ListNotations.
Open Scope Z_scope.

Section Bounds.
Context {PF : PrimeField}.

(** typed/mod.rs ArrayExpression::size: the size in the type of an array *)
Fixpoint asize (e : texp) : option nat :=
  let of t := match t with CArray _ n => Some n | _ => None end in
  match e with
  | TId t _ => of t
  | TOp (OSel t) _ => of t
  | TOp (OMem ms m) _ => match tmem m ms with Some q => of (snd q) | None => None end
  | TOp (OElt ts k) _ => match nth_error ts k with Some t => of t | None => None end
  | TOp (OArr _ n _) _ | TOp (ORep _ n) _ => Some n
  | TOp (OSlice _ f t) _ => Some (t - f)%nat
  | TOp _ _ => None
  | TCond _ x _ => asize x
  | TBlock _ e => asize e
  end.
(** l.29-44 fold_select_expression: a literal index must be below the size; the array and the index are NOT visited. Other expressions:
    result_folder.rs, all parts are visited. *)
Fixpoint bounds_e (e : texp) : bool :=
  match e with
  | TId _ _ => true
  | TOp (OSel _) [a; TOp (OUVal _ k) []] => match asize a with Some n => k <? Z.of_nat n | None => true end
  | TOp (OSel _) _ => true
  | TOp _ args => forallb bounds_e args
  | TCond c x y => bounds_e c && bounds_e x && bounds_e y
  | TBlock ss e => forallb bounds_t ss && bounds_e e
  end
with bounds_t (s : tstmt) : bool :=
  match s with
  | TDef _ _ e | TAssert e _ => bounds_e e
  | TEmb _ _ _ args | TLog _ args => forallb bounds_e args
  end.
(** l.46-77 fold_assignee *)
Fixpoint path_in_bounds (t : cty) (p : list access) : bool :=
  match p with
  | [] => true
  | ASel i :: r => match t with CArray ty n => match i with TOp (OUVal _ k) [] => k <? Z.of_nat n | _ => bounds_e i end && path_in_bounds ty r | _ => true end
  | AMem m :: r => match t with CStruct ms => match tmem m ms with Some q => path_in_bounds (snd q) r | None => true end | _ => true end
  | AElt k :: r => match t with CTuple ts => match nth_error ts k with Some tk => path_in_bounds tk r | None => true end | _ => true end
  end.
Definition bounds_stmt (s : wstmt) : bool := match s with WS s => bounds_t s | WSet _ t p e => path_in_bounds t p && bounds_e e end.
(** l.20-22 check: the program after VariableWriteRemover *)
Definition bounds_ok (p : wprog) : bool := let q := remove_writes p in forallb bounds_stmt (wbody q) && bounds_e (wret q).
End Bounds.
