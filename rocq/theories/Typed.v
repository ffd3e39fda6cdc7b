(** The typed language as it reaches the Flattener: functions inlined, loops unrolled, single assignment, sizes constant.
    Syntax: /repo/zokrates_ast/src/typed/mod.rs (expressions l.980-1660, statements l.440-560), typed/uint.rs.
    Semantics: specification (zokrates_book/src/language: types, operators, control_flow), on the structured values of the ABI (Abi.v). *)
From Coq Require Import String.
From Coq Require Import ZArith NArith List Bool Lia.
From Verif Require Import PField Interp Bits Zir Str Abi.
Import ListNotations.
Open Scope Z_scope.

Section Typed.
Context {PF : PrimeField}.

Inductive tcmp := TFLt | TFLe | TULt | TULe.
(** The operators. An expression is an identifier, a conditional, a block, or an operator applied to expressions.
    Not modelled: FieldElementExpression's bitwise operators and UExpressionInner::FloorSub, rejected or absent at this point; the exponent
    of a power, shift amounts, slice bounds and repeat counts are literals (checked by ConstantArgumentChecker and by the reducer). *)
Inductive top :=
| OFVal (c : F) | OBVal (b : bool) | OUVal (w : uwidth) (n : Z)           (* Value *)
| OFBin (op : fop) | OPow (n : N) | OFNeg | OPos                            (* Add Sub Mult Div; Pow; Neg; Pos *)
| OCmp (op : tcmp) | OEq | OBBin (op : bop) | ONot                          (* Lt Le; FieldEq UintEq BoolEq ArrayEq StructEq TupleEq; And Or; Not *)
| OUBin (w : uwidth) (op : uop) | OUNot (w : uwidth) | OShl (w : uwidth) (k : nat) | OShr (w : uwidth) (k : nat) | OUNeg (w : uwidth)
| OSel (ty : cty)                                                            (* Select: [array; index] *)
| OMem (ms : list (string * cty)) (m : string)                               (* Member of a struct with members ms *)
| OElt (ts : list cty) (k : nat)                                             (* Element of a tuple *)
| OArr (ty : cty) (n : nat) (spreads : list bool)                            (* ArrayExpressionInner::Value; true: a spread ...e *)
| OSlice (ty : cty) (from to : nat) | ORep (ty : cty) (count : nat)          (* Slice, Repeat *)
| OTup | OStr (ks : list string).                                            (* tuple and struct values *)
Inductive texp :=
| TId (t : cty) (x : Z)
| TOp (op : top) (args : list texp)
| TCond (c x y : texp)
| TBlock (ss : list tstmt) (e : texp)
with tstmt :=
| TDef (x : Z) (t : cty) (e : texp)
| TAssert (e : texp) (err : Z)
| TEmb (x : Z) (t : cty) (em : embed) (args : list texp)
| TLog (fmt : Z) (args : list texp).
(** typed/mod.rs TypedFunction (main): the return statement is the last one *)
Record tprog := mkTProg { targs : list (Z * cty * bool); tbody : list tstmt; tret : texp; tretty : cty }.

(** ** Semantics *)
(** [Failed]: an assertion failed, or a built-in function rejected its arguments. [Stuck]: an operator is undefined on its arguments
    (division by zero, index out of bounds, field comparison out of range) or the program is ill-typed. *)
Inductive outcome (A : Type) := Ok (a : A) | Failed | Stuck.
Arguments Ok {A} a.
Arguments Failed {A}.
Arguments Stuck {A}.
Definition obnd {A B} (m : outcome A) (f : A -> outcome B) : outcome B := match m with Ok a => f a | Failed => Failed | Stuck => Stuck end.
Definition of_opt {A} (m : option A) : outcome A := match m with Some a => Ok a | None => Stuck end.

Definition uwn (w : uwidth) : nat := match w with W8 => 8 | W16 => 16 | W32 => 32 | W64 => 64 end.
(** equality of values: of the same shape and component by component *)
Fixpoint value_eqb (a b : value_) {struct a} : bool :=
  match a, b with
  | VField x, VField y => fval x =? fval y
  | VBool x, VBool y => eqb x y
  | VUint _ x, VUint _ y => x =? y
  | VArray l, VArray m | VTuple l, VTuple m => (fix go l m := match l, m with [], [] => true | x :: r, y :: s => value_eqb x y && go r s | _, _ => false end) l m
  | VStruct l, VStruct m => (fix go l m := match l, m with [], [] => true | (k, x) :: r, (k', y) :: s => String.eqb k k' && value_eqb x y && go r s | _, _ => false end) l m
  | _, _ => false
  end.
Fixpoint spread (sp : list bool) (vs : list value_) : option (list value_) :=
  match sp, vs with
  | [], [] => Some []
  | false :: r, v :: s => option_map (cons v) (spread r s)
  | true :: r, VArray l :: s => option_map (app l) (spread r s)
  | _, _ => None
  end.
Fixpoint member (m : string) (l : list (string * value_)) : option value_ := match l with [] => None | (k, v) :: r => if String.eqb k m then Some v else member m r end.
Definition sem_op (op : top) (lits : list bool) (vs : list value_) : outcome value_ :=
  match op, vs with
  | OFVal c, [] => Ok (VField c)
  | OBVal b, [] => Ok (VBool b)
  | OUVal w n, [] => Ok (VUint w n)
  | OFBin o, [VField a; VField b] => of_opt (option_map VField (sem_fop o a b))
  | OPow n, [VField a] => Ok (VField (of_Z (fval a ^ Z.of_N n)))
  | OFNeg, [VField a] => Ok (VField (fopp a))
  | OPos, [v] => Ok v
  | OCmp o, [VField a; VField b] =>
      if existsb id lits || ((fval a <? safe_max) && (fval b <? safe_max)) then
        match o with TFLt => Ok (VBool (fval a <? fval b)) | TFLe => Ok (VBool (fval a <=? fval b)) | _ => Stuck end
      else Stuck
  | OCmp o, [VUint _ a; VUint _ b] => match o with TULt => Ok (VBool (a <? b)) | TULe => Ok (VBool (a <=? b)) | _ => Stuck end
  | OEq, [a; b] => Ok (VBool (value_eqb a b))
  | OBBin o, [VBool a; VBool b] => Ok (VBool (sem_bop o a b))
  | ONot, [VBool b] => Ok (VBool (negb b))
  | OUBin w o, [VUint _ a; VUint _ b] => of_opt (option_map (VUint w) (sem_uop o (uwn w) a b))
  | OUNot w, [VUint _ a] => Ok (VUint w (2 ^ bits_of w - 1 - a))
  | OShl w k, [VUint _ a] => Ok (VUint w ((a * 2 ^ Z.of_nat k) mod 2 ^ bits_of w))
  | OShr w k, [VUint _ a] => Ok (VUint w (a / 2 ^ Z.of_nat k))
  | OUNeg w, [VUint _ a] => Ok (VUint w ((- a) mod 2 ^ bits_of w))
  | OSel _, [VArray l; VUint _ k] => if 0 <=? k then of_opt (nth_error l (Z.to_nat k)) else Stuck
  | OMem _ m, [VStruct l] => of_opt (member m l)
  | OElt _ k, [VTuple l] => of_opt (nth_error l k)
  | OArr _ _ sp, _ => of_opt (option_map VArray (spread sp vs))
  | OSlice _ f t, [VArray l] => if (f <=? t)%nat && (t <=? length l)%nat then Ok (VArray (firstn (t - f) (skipn f l))) else Stuck
  | ORep _ n, [v] => Ok (VArray (repeat v n))
  | OTup, _ => Ok (VTuple vs)
  | OStr ks, _ => if (length ks =? length vs)%nat then Ok (VStruct (combine ks vs)) else Stuck
  | _, _ => Stuck
  end.
(** the built-in functions *)
Definition bools (l : list value_) : option (list bool) := opt_list (map (fun v => match v with VBool b => Some b | _ => None end) l).
Definition sem_emb (em : embed) (vs : list value_) : outcome value_ :=
  match em, vs with
  | EFieldToBool, [VField x] => if Feqb x f0 then Ok (VBool false) else if Feqb x f1 then Ok (VBool true) else Failed
  | EToBits n, [VUint w x] => if (uwn w =? n)%nat then Ok (VArray (map VBool (bits_be n x))) else Stuck
  | EFromBits n, [VArray l] => obnd (of_opt (bools l)) (fun bs => match n with
      | 8 => Ok (VUint W8 (bv bs)) | 16 => Ok (VUint W16 (bv bs)) | 32 => Ok (VUint W32 (bv bs)) | 64 => Ok (VUint W64 (bv bs)) | _ => Stuck end)%nat
  | EBitLe n, [VArray a; VArray b] => obnd (of_opt (bools a)) (fun x => obnd (of_opt (bools b)) (fun y => Ok (VBool (bv x <=? bv y))))
  | EUnpack n, [VField x] => if fval x <? 2 ^ Z.of_nat n then Ok (VArray (map VBool (bits_be n (fval x)))) else Failed
  | _, _ => Stuck
  end.

Definition tenv := Z -> option value_.
Definition tupd (rho : tenv) (x : Z) (v : value_) : tenv := fun y => if y =? x then Some v else rho y.
Definition entry := (Z * list value_)%type.
(** evaluation of a list from left to right *)
Definition teval_list (ev : texp -> outcome (list entry * value_)) : list texp -> outcome (list entry * list value_) :=
  fix go l := match l with
  | [] => Ok ([], [])
  | e :: r => obnd (ev e) (fun a => obnd (go r) (fun b => Ok (fst a ++ fst b, snd a :: snd b)))
  end.
Definition texec_list (ex : tenv -> tstmt -> outcome (list entry * tenv)) : tenv -> list tstmt -> outcome (list entry * tenv) :=
  fix go rho l := match l with
  | [] => Ok ([], rho)
  | s :: r => obnd (ex rho s) (fun a => obnd (go (snd a) r) (fun b => Ok (fst a ++ fst b, snd b)))
  end.
(** a field literal *)
Definition is_tlit (e : texp) : bool := match e with TOp (OFVal _) [] => true | _ => false end.
(** The log entries and the value. Both branches of a conditional are evaluated (control_flow.md); the definitions of a block are local. *)
Fixpoint teval (rho : tenv) (e : texp) : outcome (list entry * value_) :=
  match e with
  | TId _ x => obnd (of_opt (rho x)) (fun v => Ok ([], v))
  | TOp op args => obnd (teval_list (teval rho) args) (fun a => obnd (sem_op op (map is_tlit args) (snd a)) (fun v => Ok (fst a, v)))
  | TCond c x y => obnd (teval rho c) (fun a => obnd (teval rho x) (fun b => obnd (teval rho y) (fun d =>
      match snd a with VBool k => Ok (fst a ++ fst b ++ fst d, if k then snd b else snd d) | _ => Stuck end)))
  | TBlock ss e => obnd (texec_list texec rho ss) (fun a => obnd (teval (snd a) e) (fun b => Ok (fst a ++ fst b, snd b)))
  end
with texec (rho : tenv) (s : tstmt) : outcome (list entry * tenv) :=
  match s with
  | TDef x _ e => obnd (teval rho e) (fun a => Ok (fst a, tupd rho x (snd a)))
  | TAssert e _ => obnd (teval rho e) (fun a => match snd a with VBool true => Ok (fst a, rho) | VBool false => Failed | _ => Stuck end)
  | TEmb x _ em args => obnd (teval_list (teval rho) args) (fun a => obnd (sem_emb em (snd a)) (fun v => Ok (fst a, tupd rho x v)))
  | TLog fmt args => obnd (teval_list (teval rho) args) (fun a => Ok (fst a ++ [(fmt, snd a)], rho))
  end.
Definition tevals (rho : tenv) := teval_list (teval rho).
Definition texecs := texec_list texec.
Fixpoint tbind (rho : tenv) (ps : list (Z * cty * bool)) (vs : list value_) : tenv :=
  match ps, vs with p :: r, v :: s => tbind (tupd rho (fst (fst p)) v) r s | _, _ => rho end.
(** the returned value and the log of a run on the given arguments *)
Definition trun (p : tprog) (vs : list value_) : outcome (value_ * list entry) :=
  obnd (texecs (tbind (fun _ => None) (targs p) vs) (tbody p)) (fun a => obnd (teval (snd a) (tret p)) (fun b => Ok (snd b, fst a ++ fst b))).

(** ** Typing *)
Inductive arr_ty (ty : cty) : list bool -> list cty -> nat -> Prop :=
| ATnil : arr_ty ty [] [] 0
| ATone : forall sp ts n, arr_ty ty sp ts n -> arr_ty ty (false :: sp) (ty :: ts) (S n)
| ATspread : forall sp ts n m, arr_ty ty sp ts n -> arr_ty ty (true :: sp) (CArray ty m :: ts) (m + n).
Inductive op_ty : top -> list cty -> cty -> Prop :=
| YFVal : forall c, op_ty (OFVal c) [] CField
| YBVal : forall b, op_ty (OBVal b) [] CBool
| YUVal : forall w n, 0 <= n < 2 ^ bits_of w -> op_ty (OUVal w n) [] (CUint w)
| YFBin : forall o, op_ty (OFBin o) [CField; CField] CField
| YPow : forall n, op_ty (OPow n) [CField] CField
| YFNeg : op_ty OFNeg [CField] CField
| YPosF : op_ty OPos [CField] CField
| YPosU : forall w, op_ty OPos [CUint w] (CUint w)
| YFLt : op_ty (OCmp TFLt) [CField; CField] CBool
| YFLe : op_ty (OCmp TFLe) [CField; CField] CBool
| YULt : forall w, op_ty (OCmp TULt) [CUint w; CUint w] CBool
| YULe : forall w, op_ty (OCmp TULe) [CUint w; CUint w] CBool
| YEq : forall t, op_ty OEq [t; t] CBool
| YBBin : forall o, op_ty (OBBin o) [CBool; CBool] CBool
| YNot : op_ty ONot [CBool] CBool
| YUBin : forall w o, op_ty (OUBin w o) [CUint w; CUint w] (CUint w)
| YUNot : forall w, op_ty (OUNot w) [CUint w] (CUint w)
| YShl : forall w k, op_ty (OShl w k) [CUint w] (CUint w)
| YShr : forall w k, op_ty (OShr w k) [CUint w] (CUint w)
| YUNeg : forall w, op_ty (OUNeg w) [CUint w] (CUint w)
| YSel : forall ty n, Z.of_nat n <= 2 ^ 32 -> op_ty (OSel ty) [CArray ty n; CUint W32] ty
| YMem : forall ms m t, (exists a b, ms = a ++ (m, t) :: b /\ ~ In m (map fst a)) -> op_ty (OMem ms m) [CStruct ms] t
| YElt : forall ts k t, nth_error ts k = Some t -> op_ty (OElt ts k) [CTuple ts] t
| YArr : forall ty n sp ts, arr_ty ty sp ts n -> op_ty (OArr ty n sp) ts (CArray ty n)
| YSlice : forall ty f t m, (f <= t <= m)%nat -> op_ty (OSlice ty f t) [CArray ty m] (CArray ty (t - f))
| YRep : forall ty n, op_ty (ORep ty n) [ty] (CArray ty n)
| YTup : forall ts, op_ty OTup ts (CTuple ts)
| YStr : forall ks ts, length ks = length ts -> op_ty (OStr ks) ts (CStruct (combine ks ts)).
(** the generic arguments within the range the code generator handles *)
(** unpack: at most as many bits as the field has, each power of two being a field element (a simplification: the type checker has no such limit) *)
Definition unpackable (n : nat) : Prop := (n <= required_bits)%nat /\ 2 ^ Z.of_nat (n - 1) < pp.
Definition emb_ty (em : embed) (ts : list cty) (t : cty) : Prop :=
  match em with
  | EFieldToBool => ts = [CField] /\ t = CBool
  | EToBits n => t = CArray CBool n /\ exists w, ts = [CUint w] /\ uwn w = n
  | EFromBits n => ts = [CArray CBool n] /\ exists w, t = CUint w /\ uwn w = n
  | EBitLe n => ts = [CArray CBool n; CArray CBool n] /\ t = CBool /\ (n <= required_bits)%nat
  | EUnpack n => ts = [CField] /\ t = CArray CBool n /\ unpackable n
  end.
Definition tctx := Z -> option cty.
Definition cupd (S : tctx) (x : Z) (t : cty) : tctx := fun y => if y =? x then Some t else S y.
(** structs with distinct member names, no untyped integers *)
Fixpoint good_ty (t : cty) : Prop :=
  match t with
  | CArray ty _ => good_ty ty
  | CTuple ts => (fix go l := match l with [] => True | t :: r => good_ty t /\ go r end) ts
  | CStruct ms => NoDup (map fst ms) /\ (fix go l := match l with [] => True | (_, t) :: r => good_ty t /\ go r end) ms
  | CInt => False
  | _ => True
  end.
Inductive tty : tctx -> texp -> cty -> Prop :=
| YId : forall S t x, S x = Some t -> tty S (TId t x) t
| YOp : forall S op args ts t, ttys S args ts -> op_ty op ts t -> tty S (TOp op args) t
| YCond : forall S c x y t, tty S c CBool -> tty S x t -> tty S y t -> tty S (TCond c x y) t
| YBlock : forall S S' ss e t, tstys S ss S' -> tty S' e t -> tty S (TBlock ss e) t
with ttys : tctx -> list texp -> list cty -> Prop :=
| YNil : forall S, ttys S [] []
| YCons : forall S e r t ts, tty S e t -> ttys S r ts -> ttys S (e :: r) (t :: ts)
with tsty : tctx -> tstmt -> tctx -> Prop :=
| YDef : forall S x t e, good_ty t -> tty S e t -> tsty S (TDef x t e) (cupd S x t)
| YAssert : forall S e err, tty S e CBool -> tsty S (TAssert e err) S
| YEmb : forall S x t em args ts, ttys S args ts -> emb_ty em ts t -> tsty S (TEmb x t em args) (cupd S x t)
| YLog : forall S fmt args ts, ttys S args ts -> tsty S (TLog fmt args) S
with tstys : tctx -> list tstmt -> tctx -> Prop :=
| YSnil : forall S, tstys S [] S
| YScons : forall S S1 S2 s r, tsty S s S1 -> tstys S1 r S2 -> tstys S (s :: r) S2.
(** the identifiers defined *)
Definition tdefs_list (f : texp -> list Z) : list texp -> list Z := fix go l := match l with [] => [] | e :: r => f e ++ go r end.
Definition tdefs_stmts (f : tstmt -> list Z) : list tstmt -> list Z := fix go l := match l with [] => [] | e :: r => f e ++ go r end.
Fixpoint tdefs (e : texp) : list Z :=
  match e with
  | TId _ _ => []
  | TOp _ args => tdefs_list tdefs args
  | TCond c x y => tdefs c ++ tdefs x ++ tdefs y
  | TBlock ss e => tdefs_stmts sdefs ss ++ tdefs e
  end
with sdefs (s : tstmt) : list Z :=
  match s with
  | TDef x _ e => tdefs e ++ [x]
  | TAssert e _ => tdefs e
  | TEmb x _ _ args => tdefs_list tdefs args ++ [x]
  | TLog _ args => tdefs_list tdefs args
  end.
Definition tdefss := tdefs_list tdefs.
Definition sdefss := tdefs_stmts sdefs.
Definition tparams (ps : list (Z * cty * bool)) : tctx := fold_left (fun S p => cupd S (fst (fst p)) (snd (fst p))) ps (fun _ => None).
(** a well-typed program in single-assignment form *)
Definition well_typed (p : tprog) : Prop :=
  Forall (fun q => good_ty (snd (fst q))) (targs p) /\
  (exists S, tstys (tparams (targs p)) (tbody p) S /\ tty S (tret p) (tretty p)) /\
  NoDup (map (fun q => fst (fst q)) (targs p) ++ sdefss (tbody p) ++ tdefs (tret p)).
End Typed.
Arguments Ok {A} a.
Arguments Failed {A}.
Arguments Stuck {A}.
