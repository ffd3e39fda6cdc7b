(** ZIR: the typed, unrolled language consumed by the code generator, and its source-level meaning.
    Syntax: /repo/zokrates_ast/src/zir/mod.rs (FieldElementExpression l.700-790, BooleanExpression l.790-825,
    ZirStatement l.100-260), zir/uint.rs (UExpression, UMetadata).
    Semantics: specification (zokrates_book/src/language: types, operators, control_flow). *)
From Coq Require Import ZArith NArith List Bool Lia.
From Verif Require Import PField IR Interp Bits.
Import ListNotations.
Open Scope Z_scope.

(** zir/uint.rs:115-150 ShouldReduce *)
Inductive sreduce := SRUnknown | SRTrue | SRFalse.
Inductive fop := FAdd | FSub | FMul | FDiv.
Inductive cmpop := CFLt | CFLe | CFEq | CULt | CULe | CUEq.
Inductive bop := BEq | BOr | BAnd.
Inductive uop := UAdd | USub | UMul | UDiv | URem | UXor | UAnd | UOr.
Definition ident := Z.

Section Zir.
Context {PF : PrimeField}.

(** zir/uint.rs UMetadata{max, should_reduce} together with the bitwidth of a UExpression *)
Record ann := mkAnn { uw : nat; umax : F; ured : sreduce }.
(** zir/types.rs Type *)
Inductive kind := KF | KB | KU (a : ann).

(** All expressions in one type; [kind] tells field, boolean and uint identifiers, conditionals and selects apart.
    Pow's exponent and the shift amounts are literals (zokrates_codegen/src/lib.rs:1487, 1514, 2181 panic otherwise).
    FieldElementExpression's bitwise operators, rejected by the code generator (l.2280), are left out. *)
Inductive zexp :=
| ZFVal (c : F)
| ZBVal (b : bool)
| ZUVal (a : ann) (n : Z)
| ZId (k : kind) (x : ident)
| ZFBin (op : fop) (l r : zexp)
| ZPow (e : zexp) (n : N)
| ZCmp (op : cmpop) (l r : zexp)
| ZBBin (op : bop) (l r : zexp)
| ZBNot (e : zexp)
| ZUBin (a : ann) (op : uop) (l r : zexp)
| ZUNot (a : ann) (e : zexp)
| ZShl (a : ann) (e : zexp) (by_ : nat)
| ZShr (a : ann) (e : zexp) (by_ : nat)
| ZCond (k : kind) (c x y : zexp)
| ZSel (k : kind) (es : list zexp) (i : zexp).

(** Built-in functions (zokrates_ast/src/common/embed.rs FlatEmbed). Sha256Round and SnarkVerify are not modelled. *)
Inductive embed := EFieldToBool | EToBits (w : nat) | EFromBits (w : nat) | EBitLe (n : nat) | EUnpack (n : nat).

(** zir/mod.rs ZirStatement. Assembly is modelled in Asm.v. *)
Inductive zstmt :=
| ZReturn (es : list zexp)
| ZDef (x : ident) (e : zexp)
| ZIf (c : zexp) (ss1 ss2 : list zstmt)
| ZAssert (e : zexp) (err : Z)
| ZEmbed (xs : list ident) (em : embed) (es : list zexp)
| ZLog (fmt : Z) (es : list zexp).

(** zir/parameter.rs *)
Inductive ptype := PF_ | PB_ | PU_ (w : nat).
Record zparam := mkZParam { zpid : ident; zptype : ptype; zpprivate : bool }.
Record zprog := mkZProg { zargs : list zparam; zbody : list zstmt; zret : nat }.

(** ** Source semantics *)
Inductive val := VF (x : F) | VB (b : bool) | VU (n : Z).

(** Wrap-around machine arithmetic on w bits. *)
Definition wrap (w : nat) (z : Z) : Z := z mod 2 ^ Z.of_nat w.

Definition sem_fop (op : fop) (a b : F) : option F :=
  match op with
  | FAdd => Some (fadd a b)
  | FSub => Some (fsub a b)
  | FMul => Some (fmul a b)
  | FDiv => if Feqb b f0 then None else Some (fdiv a b)
  end.
Definition sem_uop (op : uop) (w : nat) (a b : Z) : option Z :=
  match op with
  | UAdd => Some (wrap w (a + b))
  | USub => Some (wrap w (a - b))
  | UMul => Some (wrap w (a * b))
  | UDiv => if b =? 0 then None else Some (a / b)
  | URem => if b =? 0 then None else Some (a mod b)
  | UXor => Some (Z.lxor a b)
  | UAnd => Some (Z.land a b)
  | UOr => Some (Z.lor a b)
  end.
Definition sem_bop (op : bop) (a b : bool) : bool :=
  match op with BEq => eqb a b | BOr => a || b | BAnd => a && b end.

(** Field comparisons are between canonical representatives. When neither operand is a literal, both have to be below
    2^(bits(p) - 2), otherwise the comparison fails (zokrates_book/src/language/operators.md). *)
Definition is_lit (e : zexp) : bool := match e with ZFVal _ => true | ZPow _ 0%N => true | _ => false end.
Definition safe_max : Z := 2 ^ (Z.of_nat required_bits - 2).
Definition fcmp_defined (l r : zexp) (a b : F) : bool :=
  is_lit l || is_lit r || ((fval a <? safe_max) && (fval b <? safe_max)).

Definition env_s := ident -> option val.

(** None: the evaluation fails (division by zero, select out of bounds, comparison out of range). Both branches of a
    conditional are evaluated (zokrates_book/src/language/control_flow.md). *)
Fixpoint sem (rho : env_s) (e : zexp) : option val :=
  match e with
  | ZFVal c => Some (VF c)
  | ZBVal b => Some (VB b)
  | ZUVal _ n => Some (VU n)
  | ZId _ x => rho x
  | ZFBin op l r =>
      match sem rho l, sem rho r with
      | Some (VF a), Some (VF b) => match sem_fop op a b with Some x => Some (VF x) | None => None end
      | _, _ => None
      end
  | ZPow e n => match sem rho e with Some (VF a) => Some (VF (of_Z (fval a ^ Z.of_N n))) | _ => None end
  | ZCmp op l r =>
      match sem rho l, sem rho r with
      | Some (VF a), Some (VF b) =>
          match op with
          | CFEq => Some (VB (fval a =? fval b))
          | CFLt => if fcmp_defined l r a b then Some (VB (fval a <? fval b)) else None
          | CFLe => if fcmp_defined l r a b then Some (VB (fval a <=? fval b)) else None
          | _ => None
          end
      | Some (VU a), Some (VU b) =>
          match op with
          | CUEq => Some (VB (a =? b))
          | CULt => Some (VB (a <? b))
          | CULe => Some (VB (a <=? b))
          | _ => None
          end
      | _, _ => None
      end
  | ZBBin op l r =>
      match sem rho l, sem rho r with
      | Some (VB a), Some (VB b) => Some (VB (sem_bop op a b))
      | _, _ => None
      end
  | ZBNot e => match sem rho e with Some (VB b) => Some (VB (negb b)) | _ => None end
  | ZUBin a op l r =>
      match sem rho l, sem rho r with
      | Some (VU x), Some (VU y) => match sem_uop op (uw a) x y with Some z => Some (VU z) | None => None end
      | _, _ => None
      end
  | ZUNot a e => match sem rho e with Some (VU x) => Some (VU (2 ^ Z.of_nat (uw a) - 1 - x)) | _ => None end
  | ZShl a e k => match sem rho e with Some (VU x) => Some (VU (wrap (uw a) (x * 2 ^ Z.of_nat k))) | _ => None end
  | ZShr a e k => match sem rho e with Some (VU x) => Some (VU (x / 2 ^ Z.of_nat k)) | _ => None end
  | ZCond _ c x y =>
      match sem rho c, sem rho x, sem rho y with
      | Some (VB b), Some v1, Some v2 => Some (if b then v1 else v2)
      | _, _, _ => None
      end
  | ZSel _ es i =>
      match sem rho i, opt_list (map (sem rho) es) with
      | Some (VU n), Some vs => if (0 <=? n) then nth_error vs (Z.to_nat n) else None
      | _, _ => None
      end
  end.

(** Meaning of the built-in functions. Casting a field to bool is meant for 0 and 1 only. Unpack fails on values that
    do not fit. *)
Definition bools_of (vs : list val) : option (list bool) :=
  opt_list (map (fun v => match v with VB b => Some b | _ => None end) vs).
Definition sem_embed (em : embed) (vs : list val) : option (list val) :=
  match em, vs with
  | EFieldToBool, [VF x] => if Feqb x f0 then Some [VB false] else if Feqb x f1 then Some [VB true] else None
  | EToBits w, [VU n] => Some (map VB (bits_be w n))
  | EFromBits w, _ => match bools_of vs with
                      | Some bs => if Nat.eqb (length bs) w then Some [VU (bv bs)] else None
                      | None => None
                      end
  | EBitLe n, _ => match bools_of vs with
                   | Some bs => if Nat.eqb (length bs) (2 * n)
                                then Some [VB (bv (firstn n bs) <=? bv (skipn n bs))] else None
                   | None => None
                   end
  | EUnpack n, [VF x] => if fval x <? 2 ^ Z.of_nat n then Some (map VB (bits_be n (fval x))) else None
  | _, _ => None
  end.

Definition val_f (v : val) : F := match v with VF x => x | VB b => f_of_bool b | VU n => of_Z n end.
Definition upd_s (rho : env_s) (x : ident) (v : val) : env_s := fun y => if y =? x then Some v else rho y.
Fixpoint upds_s (rho : env_s) (xs : list ident) (vs : list val) : env_s :=
  match xs, vs with x :: r, v :: s => upds_s (upd_s rho x v) r s | _, _ => rho end.

(** Execution of statements: the environment, the returned values and the log. A failing assertion fails. Both branches
    of an if statement are executed, whatever the condition. *)
Record outs_s := mkOuts { os_env : env_s; os_ret : list F; os_log : list (Z * list F) }.
Definition sem_list (rho : env_s) (es : list zexp) : option (list val) := opt_list (map (sem rho) es).
Fixpoint sem_stmt (o : outs_s) (s : zstmt) : option outs_s :=
  match s with
  | ZReturn es => match sem_list (os_env o) es with
                  | Some vs => Some (mkOuts (os_env o) (map val_f vs) (os_log o))
                  | None => None
                  end
  | ZDef x e => match sem (os_env o) e with
                | Some v => Some (mkOuts (upd_s (os_env o) x v) (os_ret o) (os_log o))
                | None => None
                end
  | ZIf c ss1 ss2 =>
      match sem (os_env o) c with
      | Some (VB _) =>
          let run := fix run (o : outs_s) (ss : list zstmt) : option outs_s :=
            match ss with
            | [] => Some o
            | s :: r => match sem_stmt o s with Some o' => run o' r | None => None end
            end in
          match run o ss1 with Some o1 => run o1 ss2 | None => None end
      | _ => None
      end
  | ZAssert e _ => match sem (os_env o) e with Some (VB true) => Some o | _ => None end
  | ZEmbed xs em es =>
      match sem_list (os_env o) es with
      | Some vs => match sem_embed em vs with
                   | Some rs => if Nat.eqb (length xs) (length rs)
                                then Some (mkOuts (upds_s (os_env o) xs rs) (os_ret o) (os_log o)) else None
                   | None => None
                   end
      | None => None
      end
  | ZLog fmt es => match sem_list (os_env o) es with
                   | Some vs => Some (mkOuts (os_env o) (os_ret o) (os_log o ++ [(fmt, map val_f vs)]))
                   | None => None
                   end
  end.
Fixpoint sem_stmts (o : outs_s) (ss : list zstmt) : option outs_s :=
  match ss with
  | [] => Some o
  | s :: r => match sem_stmt o s with Some o' => sem_stmts o' r | None => None end
  end.

(** Program inputs: field elements; None if one is not of its parameter's type. *)
Definition val_of_input (t : ptype) (x : F) : option val :=
  match t with
  | PF_ => Some (VF x)
  | PB_ => if Feqb x f0 then Some (VB false) else if Feqb x f1 then Some (VB true) else None
  | PU_ w => if fval x <? 2 ^ Z.of_nat w then Some (VU (fval x)) else None
  end.
Fixpoint bind_params (rho : env_s) (ps : list zparam) (xs : list F) : option env_s :=
  match ps, xs with
  | [], [] => Some rho
  | p :: r, x :: s => match val_of_input (zptype p) x with
                      | Some v => bind_params (upd_s rho (zpid p) v) r s
                      | None => None
                      end
  | _, _ => None
  end.
Definition sem_prog (p : zprog) (inputs : list F) : option (list F * list (Z * list F)) :=
  match bind_params (fun _ => None) (zargs p) inputs with
  | None => None
  | Some rho => match sem_stmts (mkOuts rho [] []) (zbody p) with
                | Some o => Some (os_ret o, os_log o)
                | None => None
                end
  end.

(** Derived PartialEq of UExpression (zir/uint.rs, includes bitwidth and metadata), on all expressions. *)
Definition sr_eqb (a b : sreduce) : bool :=
  match a, b with SRUnknown, SRUnknown | SRTrue, SRTrue | SRFalse, SRFalse => true | _, _ => false end.
Definition ann_eqb (a b : ann) : bool := Nat.eqb (uw a) (uw b) && Feqb (umax a) (umax b) && sr_eqb (ured a) (ured b).
Definition kind_eqb (a b : kind) : bool :=
  match a, b with KF, KF | KB, KB => true | KU x, KU y => ann_eqb x y | _, _ => false end.
Definition fop_eqb (a b : fop) := match a, b with FAdd, FAdd | FSub, FSub | FMul, FMul | FDiv, FDiv => true | _, _ => false end.
Definition cmpop_eqb (a b : cmpop) :=
  match a, b with CFLt, CFLt | CFLe, CFLe | CFEq, CFEq | CULt, CULt | CULe, CULe | CUEq, CUEq => true | _, _ => false end.
Definition bop_eqb (a b : bop) := match a, b with BEq, BEq | BOr, BOr | BAnd, BAnd => true | _, _ => false end.
Definition uop_eqb (a b : uop) :=
  match a, b with UAdd, UAdd | USub, USub | UMul, UMul | UDiv, UDiv | URem, URem | UXor, UXor | UAnd, UAnd | UOr, UOr => true
  | _, _ => false end.
Fixpoint zexp_eqb (a b : zexp) : bool :=
  match a, b with
  | ZFVal c, ZFVal d => Feqb c d
  | ZBVal c, ZBVal d => eqb c d
  | ZUVal k n, ZUVal k' n' => ann_eqb k k' && (n =? n')
  | ZId k x, ZId k' x' => kind_eqb k k' && (x =? x')
  | ZFBin o l r, ZFBin o' l' r' => fop_eqb o o' && zexp_eqb l l' && zexp_eqb r r'
  | ZPow e n, ZPow e' n' => zexp_eqb e e' && N.eqb n n'
  | ZCmp o l r, ZCmp o' l' r' => cmpop_eqb o o' && zexp_eqb l l' && zexp_eqb r r'
  | ZBBin o l r, ZBBin o' l' r' => bop_eqb o o' && zexp_eqb l l' && zexp_eqb r r'
  | ZBNot e, ZBNot e' => zexp_eqb e e'
  | ZUBin k o l r, ZUBin k' o' l' r' => ann_eqb k k' && uop_eqb o o' && zexp_eqb l l' && zexp_eqb r r'
  | ZUNot k e, ZUNot k' e' => ann_eqb k k' && zexp_eqb e e'
  | ZShl k e n, ZShl k' e' n' | ZShr k e n, ZShr k' e' n' => ann_eqb k k' && zexp_eqb e e' && Nat.eqb n n'
  | ZCond k c x y, ZCond k' c' x' y' => kind_eqb k k' && zexp_eqb c c' && zexp_eqb x x' && zexp_eqb y y'
  | ZSel k es i, ZSel k' es' i' =>
      kind_eqb k k' && zexp_eqb i i' &&
      (fix go (a b : list zexp) : bool :=
         match a, b with
         | [], [] => true
         | x :: r, y :: s => zexp_eqb x y && go r s
         | _, _ => false
         end) es es'
  | _, _ => false
  end.

(** Kind of an expression. *)
Definition zkind (e : zexp) : kind :=
  match e with
  | ZFVal _ | ZFBin _ _ _ | ZPow _ _ => KF
  | ZBVal _ | ZCmp _ _ _ | ZBBin _ _ _ | ZBNot _ => KB
  | ZUVal a _ | ZUBin a _ _ _ | ZUNot a _ | ZShl a _ _ | ZShr a _ _ => KU a
  | ZId k _ | ZCond k _ _ _ | ZSel k _ _ => k
  end.

(** Induction principle with a hypothesis for every array element. *)
Section ZInd.
Variable P : zexp -> Prop.
Hypothesis HFVal : forall c, P (ZFVal c).
Hypothesis HBVal : forall b, P (ZBVal b).
Hypothesis HUVal : forall a n, P (ZUVal a n).
Hypothesis HId : forall k x, P (ZId k x).
Hypothesis HFBin : forall op l r, P l -> P r -> P (ZFBin op l r).
Hypothesis HPow : forall e n, P e -> P (ZPow e n).
Hypothesis HCmp : forall op l r, P l -> P r -> P (ZCmp op l r).
Hypothesis HBBin : forall op l r, P l -> P r -> P (ZBBin op l r).
Hypothesis HBNot : forall e, P e -> P (ZBNot e).
Hypothesis HUBin : forall a op l r, P l -> P r -> P (ZUBin a op l r).
Hypothesis HUNot : forall a e, P e -> P (ZUNot a e).
Hypothesis HShl : forall a e k, P e -> P (ZShl a e k).
Hypothesis HShr : forall a e k, P e -> P (ZShr a e k).
Hypothesis HCond : forall k c x y, P c -> P x -> P y -> P (ZCond k c x y).
Hypothesis HSel : forall k es i, Forall P es -> P i -> P (ZSel k es i).
Fixpoint zexp_ind' (e : zexp) : P e :=
  match e with
  | ZFVal c => HFVal c
  | ZBVal b => HBVal b
  | ZUVal a n => HUVal a n
  | ZId k x => HId k x
  | ZFBin op l r => HFBin op l r (zexp_ind' l) (zexp_ind' r)
  | ZPow e n => HPow e n (zexp_ind' e)
  | ZCmp op l r => HCmp op l r (zexp_ind' l) (zexp_ind' r)
  | ZBBin op l r => HBBin op l r (zexp_ind' l) (zexp_ind' r)
  | ZBNot e => HBNot e (zexp_ind' e)
  | ZUBin a op l r => HUBin a op l r (zexp_ind' l) (zexp_ind' r)
  | ZUNot a e => HUNot a e (zexp_ind' e)
  | ZShl a e k => HShl a e k (zexp_ind' e)
  | ZShr a e k => HShr a e k (zexp_ind' e)
  | ZCond k c x y => HCond k c x y (zexp_ind' c) (zexp_ind' x) (zexp_ind' y)
  | ZSel k es i => HSel k es i
      ((fix go (l : list zexp) : Forall P l :=
          match l with [] => Forall_nil P | x :: r => Forall_cons x (zexp_ind' x) (go r) end) es) (zexp_ind' i)
  end.
End ZInd.
End Zir.
