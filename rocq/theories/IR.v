(** Model of the R1CS intermediate representation.
    /repo/zokrates_ast/src/ir/expression.rs, ir/mod.rs, common/solvers.rs, common/flat/variable.rs.
    Spans (source positions) are not modelled: they are ignored by equality and hashing. *)
From Coq Require Import ZArith List Bool Lia.
From Verif Require Import PField SMap.
Import ListNotations.
Open Scope Z_scope.

(** common/flat/variable.rs:11-13: Variable{id: isize}; ids are unbounded here (isize in the code). *)
Definition var := Z.
Definition vone : var := 0.                        (* variable.rs:22-24 *)
Definition vnew (i : nat) : var := 1 + Z.of_nat i. (* variable.rs:16-20 *)
Definition vpub (i : nat) : var := - Z.of_nat i - 1. (* variable.rs:26-30 *)
Definition is_output (v : var) : bool := v <? 0.   (* variable.rs:77-79 *)

(** common/solvers.rs:14-50. [SExt k a b]: the solvers whose body is a ZIR function, an indexed reference, or an
    external circuit (Zir, Ref, Sha256Round, SnarkVerifyBls12377), identified by a number [k], of arity (a,b). *)
Inductive solver :=
| SConditionEq | SBits (n : nat) | SDiv | SXor | SOr | SShaMaj | SShaCh | SEuclid
| SExt (k : Z) (ni no : nat).

(** common/solvers.rs:52-70 get_signature *)
Definition solver_sig (s : solver) : nat * nat :=
  match s with
  | SConditionEq => (1, 2) | SBits n => (1, n) | SDiv => (2, 1) | SXor => (2, 1) | SOr => (2, 1)
  | SShaMaj => (3, 1) | SShaCh => (3, 1) | SEuclid => (2, 2) | SExt _ i o => (i, o)
  end%nat.

Section IR.
Context {PF : PrimeField}.

(** expression.rs:70-76 LinComb, :11-18 QuadComb *)
Definition lincomb := list (var * F).
Record quadcomb := mkQ { qleft : lincomb; qright : lincomb }.

(** ir/mod.rs:36-43 ConstraintStatement, statements.rs DirectiveStatement / LogStatement.
    A log's typed expressions are kept as lists of linear combinations. [error] is an opaque number. *)
Inductive stmt :=
| Constraint (q : quadcomb) (l : lincomb) (err : option Z)
| Directive (outs : list var) (s : solver) (ins : list quadcomb)
| Log (fmt : Z) (es : list lincomb).

(** ir/mod.rs:121-130 Statement, with Block holding the statements of one assembly block
    (ir/mod.rs:84-95). Simplification: blocks are not nested (the only producer of blocks,
    zokrates_codegen/src/lib.rs flatten_statement/Assembly, emits none inside a block). *)
Inductive bstmt := Single (s : stmt) | Block (ss : list stmt).

(** common/flat/parameter.rs *)
Record param := mkParam { pid : var; pprivate : bool }.

(** ir/mod.rs:212-221 ProgIterator (module map and solver table omitted here) *)
Record prog := mkProg { pargs : list param; pret : nat; pstmts : list bstmt }.

(** ir/mod.rs:262-264 returns *)
Definition returns (p : prog) : list var := map vpub (seq 0 (pret p)).

(** ** Operations on linear combinations *)

(** expression.rs:159-172 summand, zero; :243-245 one; :56-60 From<T>, From<Variable> *)
Definition lc_summand (k : F) (v : var) : lincomb := [(v, k)].
Definition lc_one : lincomb := lc_summand f1 vone.
(** expression.rs:174-176 is_zero: syntactically empty *)
Definition lc_is_zero (l : lincomb) : bool := match l with [] => true | _ => false end.
(** expression.rs:325-333 Add *)
Definition lc_add (a b : lincomb) : lincomb := a ++ b.
(** expression.rs:335-349 Sub *)
Definition lc_sub (a b : lincomb) : lincomb := a ++ map (fun t => (fst t, fsub f0 (snd t))) b.
(** expression.rs:351-366 Mul<&T>: scaling by one is the identity *)
Definition lc_scale (k : F) (l : lincomb) : lincomb :=
  if Feqb k f1 then l else map (fun t => (fst t, fmul (snd t) k)) l.
(** expression.rs:368-376 Div<&T>: panics (None) on zero *)
Definition lc_div (l : lincomb) (k : F) : option lincomb :=
  if Feqb k f0 then None else Some (lc_scale (finv k) l).
(** expression.rs:52-54 From<T> for LinComb: LinComb::one() * &x *)
Definition lc_const (x : F) : lincomb := lc_scale x lc_one.
(** expression.rs:58-62 From<Into<LinComb>> for QuadComb *)
Definition q_of_lc (l : lincomb) : quadcomb := mkQ lc_one l.

Definition lc_coeff_sum (l : lincomb) : F := fold_left (fun acc t => fadd acc (snd t)) l f0.

(** expression.rs:188-210 try_constant *)
Definition lc_try_constant (l : lincomb) : option F :=
  match l with
  | [] => Some f0
  | (v0, _) :: _ =>
      if negb (v0 =? vone) then None
      else if forallb (fun t => fst t =? v0) l then Some (lc_coeff_sum l) else None
  end.

(** expression.rs:218-241 try_summand *)
Definition lc_try_summand (l : lincomb) : option (var * F) :=
  match l with
  | [] => None
  | (v0, _) :: _ => if forallb (fun t => fst t =? v0) l then Some (v0, lc_coeff_sum l) else None
  end.

(** expression.rs:33-48 try_linear (None = Err(self): not recognised as linear) *)
Definition q_try_linear (q : quadcomb) : option lincomb :=
  if lc_is_zero (qleft q) || lc_is_zero (qright q) then Some []
  else match lc_try_constant (qleft q) with
       | Some k => Some (lc_scale k (qright q))
       | None => match lc_try_constant (qright q) with
                 | Some k => Some (lc_scale k (qleft q))
                 | None => None
                 end
       end.

(** expression.rs:249-280 into_canonical: one step of the fold over the BTreeMap *)
Definition canon_step (acc : smap F) (t : var * F) : smap F :=
  let (v, c) := t in
  if Feqb c f0 then acc
  else match sget v acc with
       | Some o => if Feqb (fadd o c) f0 then sdel v acc else sput v (fadd o c) acc
       | None => sput v c acc
       end.
Definition lc_canon (l : lincomb) : lincomb := fold_left canon_step l [].
(** expression.rs:287-296 QuadComb::into_canonical / reduce *)
Definition q_canon (q : quadcomb) : quadcomb := mkQ (lc_canon (qleft q)) (lc_canon (qright q)).

End IR.

(** ** Decidable syntactic equality (derived PartialEq, ignoring spans and errors) *)
Definition solver_eqb (a b : solver) : bool :=
  match a, b with
  | SConditionEq, SConditionEq | SDiv, SDiv | SXor, SXor | SOr, SOr | SShaMaj, SShaMaj
  | SShaCh, SShaCh | SEuclid, SEuclid => true
  | SBits n, SBits m => Nat.eqb n m
  | SExt k i o, SExt k' i' o' => (k =? k') && Nat.eqb i i' && Nat.eqb o o'
  | _, _ => false
  end.
Fixpoint list_eqb {A} (eqb : A -> A -> bool) (l1 l2 : list A) : bool :=
  match l1, l2 with
  | [], [] => true
  | x :: r1, y :: r2 => eqb x y && list_eqb eqb r1 r2
  | _, _ => false
  end.
Section Eq.
Context {PF : PrimeField}.
Definition lc_eqb : lincomb -> lincomb -> bool :=
  list_eqb (fun a b => (fst a =? fst b) && Feqb (snd a) (snd b)).
Definition q_eqb (a b : quadcomb) : bool := lc_eqb (qleft a) (qleft b) && lc_eqb (qright a) (qright b).
End Eq.
