(** Model of flat programs and of their lowering to R1CS.
    /repo/zokrates_ast/src/flat/mod.rs, /repo/zokrates_ast/src/ir/from_flat.rs. *)
From Coq Require Import ZArith List Bool Lia.
From Verif Require Import PField SMap IR IRSpec Wf Interp.
Import ListNotations.
Open Scope Z_scope.

Section Flat.
Context {PF : PrimeField}.

(** flat/mod.rs:306-313 FlatExpression *)
Inductive fexp :=
| XVal (c : F)
| XId (v : var)
| XAdd (a b : fexp)
| XSub (a b : fexp)
| XMul (a b : fexp).

(** Derived PartialEq (spans are ignored by equality and hashing, common/expressions.rs) *)
Fixpoint fexp_eqb (a b : fexp) : bool :=
  match a, b with
  | XVal c, XVal d => Feqb c d
  | XId v, XId u => v =? u
  | XAdd a1 a2, XAdd b1 b2 | XSub a1 a2, XSub b1 b2 | XMul a1 a2, XMul b1 b2 => fexp_eqb a1 b1 && fexp_eqb a2 b2
  | _, _ => false
  end.

(** flat/mod.rs:383-395 is_linear *)
Fixpoint is_linear (e : fexp) : bool :=
  match e with
  | XVal _ | XId _ => true
  | XAdd a b | XSub a b => is_linear a && is_linear b
  | XMul (XVal _) (XVal _) | XMul (XVal _) (XId _) | XMul (XId _) (XVal _) => true
  | XMul _ _ => false
  end.

(** flat/mod.rs FlatStatement (l.95-118): Definition, Condition, Directive, Log; Block is modelled in Asm.v.
    - [XDef v e err]: Definition (err = None). It also stands for a Condition whose linear side is a single variable
      introduced there (the only one is the `bc` of zokrates_codegen/src/lib.rs:1706-1710, err = Some _): both are lowered
      to the same constraint, the runtime error excepted.
    - [XNote b] is a ghost marker, not a statement of the code: it records that the code generator reused a cached bit
      decomposition in a way which is not justified ([true]: may accept too much, [false]: may accept too little). It
      is dropped by the lowering. *)
Inductive fstmt :=
| XDef (v : var) (e : fexp) (err : option Z)
| XCond (lin quad : fexp) (err : Z)
| XDir (outs : list var) (s : solver) (ins : list fexp)
| XLog (fmt : Z) (es : list fexp)
| XNote (unsafe : bool).

(** ** Meaning *)
Fixpoint feval (w : env) (e : fexp) : F :=
  match e with
  | XVal c => c
  | XId v => w v
  | XAdd a b => fadd (feval w a) (feval w b)
  | XSub a b => fsub (feval w a) (feval w b)
  | XMul a b => fmul (feval w a) (feval w b)
  end.
Definition fsat (w : env) (s : fstmt) : Prop :=
  match s with
  | XDef v e _ => w v = feval w e
  | XCond l q _ => feval w l = feval w q
  | XDir _ _ _ | XLog _ _ | XNote _ => True
  end.
Fixpoint fvars (e : fexp) : list var :=
  match e with
  | XVal _ => []
  | XId v => [v]
  | XAdd a b | XSub a b | XMul a b => fvars a ++ fvars b
  end.

(** ** Lowering *)
(** from_flat.rs:34-61 From<FlatExpression> for LinComb; None models unreachable!() *)
Fixpoint lc_of_flat (e : fexp) : option lincomb :=
  match e with
  | XVal c => Some (if Feqb c f0 then [] else lc_summand c vone)
  | XId v => Some [(v, f1)]
  | XAdd a b => match lc_of_flat a, lc_of_flat b with Some x, Some y => Some (lc_add x y) | _, _ => None end
  | XSub a b => match lc_of_flat a, lc_of_flat b with Some x, Some y => Some (lc_sub x y) | _, _ => None end
  | XMul (XVal n) (XId v) | XMul (XId v) (XVal n) => Some (lc_summand n v)
  | XMul (XVal n) (XVal m) => Some (lc_summand (fmul n m) vone)
  | XMul _ _ => None
  end.
(** from_flat.rs:67-75 and 80-87: the quadratic side of a condition or definition *)
Definition quad_of_flat (e : fexp) : option quadcomb :=
  match e with
  | XMul a b => match lc_of_flat a, lc_of_flat b with Some x, Some y => Some (mkQ x y) | _, _ => None end
  | e => match lc_of_flat e with Some x => Some (q_of_lc x) | None => None end
  end.
(** from_flat.rs:9-19 QuadComb::from_flat_expression (directive inputs) *)
Definition qin_of_flat (e : fexp) : option quadcomb :=
  if is_linear e then match lc_of_flat e with Some x => Some (q_of_lc x) | None => None end
  else match e with XMul _ _ => quad_of_flat e | _ => None end.
(** from_flat.rs:63-103 From<FlatStatement> for Statement *)
Definition lower_stmt (s : fstmt) : option (list stmt) :=
  match s with
  | XDef v e err => match quad_of_flat e with Some q => Some [Constraint q [(v, f1)] err] | None => None end
  | XCond l q err =>
      match quad_of_flat q, lc_of_flat l with
      | Some q', Some l' => Some [Constraint q' l' (Some err)]
      | _, _ => None
      end
  | XDir outs s ins => match opt_list (map qin_of_flat ins) with Some is => Some [Directive outs s is] | None => None end
  | XLog fmt es => match opt_list (map lc_of_flat es) with Some ls => Some [Log fmt ls] | None => None end
  | XNote _ => Some []
  end.
(** from_flat.rs:21-31 from_flat *)
Fixpoint lower (ss : list fstmt) : option (list stmt) :=
  match ss with
  | [] => Some []
  | s :: r => match lower_stmt s, lower r with Some a, Some b => Some (a ++ b) | _, _ => None end
  end.

(** ** Definition before use, at the flat level (specification) *)
Definition fintro (d : list var) (s : fstmt) : option (list var) :=
  match s with
  | XDef v e _ => if subset (fvars e) d && negb (mem v d) then Some (v :: d) else None
  | XCond l q _ => if subset (fvars l ++ fvars q) d then Some d else None
  | XDir outs sv ins =>
      if subset (flat_map fvars ins) d && nodupb outs && forallb (fun o => negb (mem o d) && negb (is_output o)) outs
         && Nat.eqb (length ins) (fst (solver_sig sv)) && Nat.eqb (length outs) (snd (solver_sig sv))
      then Some (outs ++ d) else None
  | XLog _ es => if subset (flat_map fvars es) d then Some d else None
  | XNote _ => Some d
  end.
Fixpoint fintro_all (d : list var) (ss : list fstmt) : option (list var) :=
  match ss with
  | [] => Some d
  | s :: r => match fintro d s with Some d' => fintro_all d' r | None => None end
  end.

(** An honest assignment: definitions hold and directive outputs are the solvers' answers; nothing is asked of
    conditions. Ghost notes are excluded. *)
Definition hon (solve : solver -> list F -> option (list F)) (w : env) (s : fstmt) : Prop :=
  match s with
  | XDef v e _ => w v = feval w e
  | XDir outs sv ins => solve sv (map (feval w) ins) = Some (map w outs)
  | XCond _ _ _ | XLog _ _ => True
  | XNote _ => False
  end.
(** Satisfaction, ghost notes of the unsafe kind excluded. *)
Definition gsat (w : env) (s : fstmt) : Prop :=
  match s with XNote u => u = false | s => fsat w s end.

End Flat.
