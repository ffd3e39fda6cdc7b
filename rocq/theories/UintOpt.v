(** Model of the uint optimiser, /repo/zokrates_analysis/src/uint_optimizer.rs, which annotates every uint expression
    with the largest integer it can be and with whether it has to be reduced modulo 2^bitwidth.
    Input expressions carry no metadata in the code; here the [umax] and [ured] of the input are ignored and only the
    bitwidth is read. [None] stands for a panic. *)
From Coq Require Import ZArith NArith List Bool Lia.
From Verif Require Import PField IR Interp Bits Flat Zir Codegen.
Import ListNotations.
Open Scope Z_scope.

Section UintOpt.
Context {PF : PrimeField}.

Definition obind {A B} (x : option A) (f : A -> option B) : option B := match x with Some a => f a | None => None end.
Notation "x <~ m ; k" := (obind m (fun x => k)) (at level 61, m at next level, right associativity).
Definition oassert {B} (b : bool) (k : option B) : option B := if b then k else None.

(** zokrates_field/src/lib.rs:252 max_unique_value *)
Definition mu : Z := pow2 (required_bits - 1) - 1.
(** zokrates_field/src/lib.rs:504-524 checked_add, 525-545 checked_mul: outer None is the panic of the assertions *)
Definition checked_add (a b : F) : option (option F) :=
  oassert ((fval a <=? mu) && (fval b <=? mu)) (Some (if mu <? fval a + fval b then None else Some (fadd a b))).
Definition checked_mul (a b : F) : option (option F) :=
  oassert ((fval a <=? mu) && (fval b <=? mu)) (Some (if mu <? fval a * fval b then None else Some (fmul a b))).

(** HashMap<ZirAssignee, UMetadata>: keyed by identifier and bitwidth (l.10) *)
Definition menv := ident -> nat -> option ann.
Definition mreg (M : menv) (x : ident) (w : nat) (a : ann) : menv := fun y v => if (y =? x) && Nat.eqb v w then Some a else M y v.

(** the metadata of a uint expression, and replacing it *)
Definition uann (e : zexp) : option ann := match zkind e with KU a => Some a | _ => None end.
Definition set_ann (a : ann) (e : zexp) : zexp :=
  match e with
  | ZUVal _ n => ZUVal a n
  | ZId (KU _) x => ZId (KU a) x
  | ZUBin _ op l r => ZUBin a op l r
  | ZUNot _ e => ZUNot a e
  | ZShl _ e k => ZShl a e k
  | ZShr _ e k => ZShr a e k
  | ZCond (KU _) c x y => ZCond (KU a) c x y
  | ZSel (KU _) es i => ZSel (KU a) es i
  | e => e
  end.
(** l.29-41 force_reduce, l.43-55 force_no_reduce (zir/uint.rs:131-141 make_true, make_false) *)
Definition force_reduce (e : zexp) : option zexp :=
  a <~ uann e; Some (set_ann (mkAnn (uw a) (umax a) SRTrue) e).
Definition force_no_reduce (e : zexp) : option zexp :=
  a <~ uann e; match ured a with SRTrue => None | _ => Some (set_ann (mkAnn (uw a) (umax a) SRFalse) e) end.
Definition force (b : bool) (e : zexp) : option zexp := if b then force_reduce e else force_no_reduce e.

(** l.109-115: bitwidth checked against the field *)
Definition range_ok (w : nat) : bool := Nat.ltb w (Nat.div2 (required_bits - 1)).
Definition range_max (w : nat) : F := of_Z (pow2 w - 1).
Definition with_max (w : nat) (m : F) : ann := mkAnn w m SRUnknown.

(** l.155-195 Add and l.290-330 Mult: which operands to reduce, and the maximum of the result *)
Definition choose (op : F -> F -> option (option F)) (both rm lm rmx : F) : option (bool * bool * F) :=
  m1 <~ op lm rmx;
  match m1 with
  | Some m => Some (false, false, m)
  | None => m2 <~ op rm rmx;
            match m2 with
            | Some m => Some (true, false, m)
            | None => m3 <~ op lm rm;
                      match m3 with Some m => Some (false, true, m) | None => Some (true, true, both) end
            end
  end.
(** l.196-262 Sub; T::from(2).pow(n) is written of_Z (pow2 n) *)
Definition choose_sub (w : nat) (lm rmx : F) : option (bool * bool * F) :=
  let offset := of_Z (pow2 (Nat.max (fbits rmx) w)) in
  let target := of_Z (pow2 w) in
  if Nat.eqb (fbits rmx) (required_bits - 1)
  then m1 <~ checked_add lm target;
       match m1 with Some m => Some (false, true, m) | None => Some (true, true, fadd (range_max w) target) end
  else m1 <~ checked_add lm offset;
       match m1 with
       | Some m => Some (false, false, m)
       | None => m2 <~ checked_add (range_max w) offset;
                 match m2 with Some m => Some (true, false, m) | None => None end
       end.
Definition choose_op (op : uop) (w : nat) (lm rm : F) : option (bool * bool * F) :=
  match op with
  | UAdd => choose checked_add (fadd (range_max w) (range_max w)) (range_max w) lm rm
  | UMul => choose checked_mul (fmul (range_max w) (range_max w)) (range_max w) lm rm
  | USub => choose_sub w lm rm
  | _ => Some (true, true, range_max w)        (* l.263-289, 331-350: Xor, And, Or, Div, Rem *)
  end.
Definition umaxs (es : list zexp) : option F :=
  match es with
  | [] => None
  | _ => Some (of_Z (fold_right (fun e m => Z.max (match zkind e with KU a => fval (umax a) | _ => 0 end) m) 0 es))
  end.
Definition mapO {A B} (f : A -> option B) : list A -> option (list B) :=
  fix go (l : list A) : option (list B) := match l with [] => Some [] | a :: r => b <~ f a; s <~ go r; Some (b :: s) end.

(** l.57-440: fold_select_expression, fold_boolean_expression_cases, fold_uint_expression and the default folder *)
Fixpoint uo (M : menv) (e : zexp) : option zexp :=
  match e with
  | ZFVal _ | ZBVal _ | ZId KF _ | ZId KB _ => Some e
  | ZUVal a n => oassert (range_ok (uw a)) (Some (ZUVal (with_max (uw a) (of_Z n)) n))
  | ZId (KU a) x => oassert (range_ok (uw a)) (m <~ M x (uw a); Some (ZId (KU m) x))
  | ZFBin op l r => l' <~ uo M l; r' <~ uo M r; Some (ZFBin op l' r')
  | ZPow e n => e' <~ uo M e; Some (ZPow e' n)
  | ZCmp op l r =>
      l' <~ uo M l; r' <~ uo M r;
      match op with
      | CULt | CULe | CUEq => l2 <~ force_reduce l'; r2 <~ force_reduce r'; Some (ZCmp op l2 r2)
      | _ => Some (ZCmp op l' r')
      end
  | ZBBin op l r => l' <~ uo M l; r' <~ uo M r; Some (ZBBin op l' r')
  | ZBNot e => e' <~ uo M e; Some (ZBNot e')
  | ZUBin a op l r =>
      oassert (range_ok (uw a))
        (l' <~ uo M l; r' <~ uo M r; al <~ uann l'; ar <~ uann r';
         c <~ choose_op op (uw a) (umax al) (umax ar);
         l2 <~ force (fst (fst c)) l'; r2 <~ force (snd (fst c)) r';
         Some (ZUBin (with_max (uw a) (snd c)) op l2 r2))
  | ZUNot a e => oassert (range_ok (uw a)) (e' <~ uo M e; e2 <~ force_reduce e'; Some (ZUNot (with_max (uw a) (range_max (uw a))) e2))
  | ZShl a e k =>
      oassert (range_ok (uw a) && range_ok 32)
        (e' <~ uo M e; ae <~ uann e'; e2 <~ force_reduce e';
         Some (ZShl (with_max (uw a) (of_Z (Z.land (fval (umax ae) * pow2 k) (pow2 (uw a) - 1)))) e2 k))
  | ZShr a e k =>
      oassert (range_ok (uw a) && range_ok 32)
        (e' <~ uo M e; ae <~ uann e'; e2 <~ force_reduce e';
         Some (ZShr (with_max (uw a) (of_Z (Z.land (fval (umax ae)) (pow2 (uw a) - 1) / pow2 k))) e2 k))
  | ZCond k c x y =>
      match k with
      | KU a => oassert (range_ok (uw a))
          (c' <~ uo M c; x' <~ uo M x; y' <~ uo M y; x2 <~ force_no_reduce x'; y2 <~ force_no_reduce y';
           m <~ umaxs [x2; y2]; Some (ZCond (KU (with_max (uw a) m)) c' x2 y2))
      | _ => c' <~ uo M c; x' <~ uo M x; y' <~ uo M y; Some (ZCond k c' x' y')
      end
  | ZSel k es i =>
      es' <~ (fix go (l : list zexp) : option (list zexp) := match l with [] => Some [] | a :: r => b <~ uo M a; s <~ go r; Some (b :: s) end) es;
      i' <~ uo M i; i2 <~ force_reduce i';
      match k with
      | KU a => oassert (range_ok (uw a)) (es2 <~ mapO force_no_reduce es'; m <~ umaxs es2; Some (ZSel (KU (with_max (uw a) m)) es2 i2))
      | _ => Some (ZSel k es' i2)
      end
  end.

(** a uint that leaves the program is reduced (l.442-460 return, l.569-590 log, l.530-552 to_bits) *)
Definition uo_out (M : menv) (e : zexp) : option zexp := e' <~ uo M e; match zkind e' with KU _ => force_reduce e' | _ => Some e' end.
(** l.462-478 definitions *)
Definition uo_def (M : menv) (x : ident) (e : zexp) : option (menv * zexp) :=
  e' <~ uo M e;
  match zkind e' with
  | KU _ => e2 <~ force_no_reduce e'; a <~ uann e2; Some (mreg M x (uw a) a, e2)
  | _ => Some (M, e')
  end.
(** zir/uint.rs:158-165 UMetadata::parameter *)
Definition pmeta (w : nat) : ann := mkAnn w (of_Z (pow2 w - 1)) SRFalse.
Fixpoint uo_stmt (M : menv) (s : zstmt) : option (menv * zstmt) :=
  match s with
  | ZReturn es => es' <~ mapO (uo_out M) es; Some (M, ZReturn es')
  | ZLog f es => es' <~ mapO (uo_out M) es; Some (M, ZLog f es')
  | ZDef x e => r <~ uo_def M x e; Some (fst r, ZDef x (snd r))
  | ZAssert e err => e' <~ uo M e; Some (M, ZAssert e' err)
  | ZEmbed xs em es =>                                             (* l.480-567 *)
      let M' := match em, xs with EFromBits w, [x] => Some (mreg M x w (pmeta w)) | EFromBits _, _ => None | _, _ => Some M end in
      M1 <~ M'; es' <~ match em with EToBits _ => mapO (uo_out M1) es | _ => mapO (uo M1) es end; Some (M1, ZEmbed xs em es')
  | ZIf c a b =>                                                   (* zir/folder.rs:340-355 *)
      c' <~ uo M c;
      ra <~ (fix go (M : menv) (l : list zstmt) : option (menv * list zstmt) :=
               match l with [] => Some (M, []) | s :: r => p <~ uo_stmt M s; q <~ go (fst p) r; Some (fst q, snd p :: snd q) end) M a;
      rb <~ (fix go (M : menv) (l : list zstmt) : option (menv * list zstmt) :=
               match l with [] => Some (M, []) | s :: r => p <~ uo_stmt M s; q <~ go (fst p) r; Some (fst q, snd p :: snd q) end) (fst ra) b;
      Some (fst rb, ZIf c' (snd ra) (snd rb))
  end.
Fixpoint uo_stmts (M : menv) (l : list zstmt) : option (menv * list zstmt) :=
  match l with [] => Some (M, []) | s :: r => p <~ uo_stmt M s; q <~ uo_stmts (fst p) r; Some (fst q, snd p :: snd q) end.
(** l.592-605 fold_parameter; l.21 optimize *)
Definition uo_params (ps : list zparam) : menv :=
  fold_left (fun M p => match zptype p with PU_ w => mreg M (zpid p) w (pmeta w) | _ => M end) ps (fun _ _ => None).
Definition uint_optimize (p : zprog) : option zprog :=
  r <~ uo_stmts (uo_params (zargs p)) (zbody p); Some (mkZProg (zargs p) (snd r) (zret p)).

(** ** Source typing: what semantic analysis establishes, before any metadata exists *)
Definition senv := ident -> option ptype.
Definition kty (k : kind) : ptype := match k with KF => PF_ | KB => PB_ | KU a => PU_ (uw a) end.
(** every uintN of the language for a field of more than 130 bits *)
Definition wid (w : nat) : Prop := (1 <= w)%nat /\ (2 * w + 3 <= required_bits)%nat.
Definition tywid (t : ptype) : Prop := match t with PU_ w => wid w | _ => True end.
Fixpoint has_ty (S : senv) (e : zexp) (t : ptype) : Prop :=
  match e with
  | ZFVal _ => t = PF_
  | ZBVal _ => t = PB_
  | ZUVal a n => t = PU_ (uw a) /\ wid (uw a) /\ 0 <= n < pow2 (uw a)
  | ZId k x => t = kty k /\ S x = Some t /\ tywid t
  | ZFBin _ l r => t = PF_ /\ has_ty S l PF_ /\ has_ty S r PF_
  | ZPow e _ => t = PF_ /\ has_ty S e PF_
  | ZCmp op l r =>
      t = PB_ /\
      match op with
      | CFLt | CFLe | CFEq => has_ty S l PF_ /\ has_ty S r PF_
      | CULt | CULe | CUEq => exists w, wid w /\ has_ty S l (PU_ w) /\ has_ty S r (PU_ w)
      end
  | ZBBin _ l r => t = PB_ /\ has_ty S l PB_ /\ has_ty S r PB_
  | ZBNot e => t = PB_ /\ has_ty S e PB_
  | ZUBin a _ l r => t = PU_ (uw a) /\ wid (uw a) /\ has_ty S l t /\ has_ty S r t
  | ZUNot a e => t = PU_ (uw a) /\ wid (uw a) /\ has_ty S e t
  | ZShl a e _ | ZShr a e _ => t = PU_ (uw a) /\ wid (uw a) /\ wid 32 /\ has_ty S e t
  | ZCond k c x y => t = kty k /\ tywid t /\ has_ty S c PB_ /\ has_ty S x t /\ has_ty S y t
  | ZSel k es i =>
      t = kty k /\ tywid t /\ wid 32 /\ has_ty S i (PU_ 32) /\ es <> [] /\ Z.of_nat (length es) <= pow2 32 /\
      (fix go (l : list zexp) : Prop := match l with [] => True | e :: r => has_ty S e t /\ go r end) es
  end.
Definition supd (S : senv) (x : ident) (t : ptype) : senv := fun y => if y =? x then Some t else S y.
Fixpoint supds (S : senv) (xs : list ident) (ts : list ptype) : senv :=
  match xs, ts with x :: r, t :: s => supds (supd S x t) r s | _, _ => S end.
Definition embed_in (em : embed) : list ptype :=
  match em with
  | EFieldToBool | EUnpack _ => [PF_]
  | EToBits n => [PU_ n]
  | EFromBits n => repeat PB_ n
  | EBitLe n => repeat PB_ (2 * n)
  end.
Definition embed_out (em : embed) : list ptype :=
  match em with
  | EFieldToBool | EBitLe _ => [PB_]
  | EToBits n | EUnpack n => repeat PB_ n
  | EFromBits n => [PU_ n]
  end.
(** static conditions on the generic arguments *)
Definition embed_static (em : embed) : Prop :=
  match em with
  | EToBits n | EFromBits n => wid n
  | EBitLe n => (n <= required_bits)%nat
  | EUnpack n => (n <= required_bits)%nat
  | EFieldToBool => True
  end.
(** typing of statements: [sty_stmt S s S'], in single-assignment form where the code generator needs it *)
Inductive sty_stmt : senv -> zstmt -> senv -> Prop :=
| SReturn : forall S es ts, Forall2 (has_ty S) es ts -> sty_stmt S (ZReturn es) S
| SLog : forall S f es ts, Forall2 (has_ty S) es ts -> sty_stmt S (ZLog f es) S
| SDef : forall S x e t, has_ty S e t -> sty_stmt S (ZDef x e) (supd S x t)
| SAssert : forall S e err, has_ty S e PB_ -> sty_stmt S (ZAssert e err) S
| SEmbed : forall S xs em es, Forall2 (has_ty S) es (embed_in em) -> embed_static em -> length xs = length (embed_out em) ->
    match em with EFromBits _ => Forall (fun x => S x = None) xs | _ => True end ->
    sty_stmt S (ZEmbed xs em es) (supds S xs (embed_out em))
| SIf : forall S c a b S1 S2, has_ty S c PB_ -> sty_stmts S a S1 -> sty_stmts S1 b S2 -> sty_stmt S (ZIf c a b) S2
with sty_stmts : senv -> list zstmt -> senv -> Prop :=
| SNil : forall S, sty_stmts S [] S
| SCons : forall S s r S1 S2, sty_stmt S s S1 -> sty_stmts S1 r S2 -> sty_stmts S (s :: r) S2.
Definition sty_params (ps : list zparam) : senv := fold_left (fun S p => supd S (zpid p) (zptype p)) ps (fun _ => None).
Definition sty_prog (p : zprog) : Prop :=
  Forall (fun q => tywid (zptype q)) (zargs p) /\ (exists S, sty_stmts (sty_params (zargs p)) (zbody p) S) /\
  exists ss es, zbody p = ss ++ [ZReturn es] /\ length es = zret p.

(** ** The two places where the recorded maxima go wrong (properties C21, C22); the positive theorems exclude them *)
(** A shift's recorded maximum is the shift of the operand's recorded maximum [m], cut to the bitwidth. That bounds the
    result when nothing is cut, or when [m] is all ones. *)
Definition shl_ok (w k : nat) (m : Z) : Prop := m * pow2 k < pow2 w \/ m mod pow2 w = pow2 w - 1.
Definition shr_ok (w : nat) (m : Z) : Prop := m < pow2 w \/ m mod pow2 w = pow2 w - 1.
Definition annP (P : ann -> Prop) (e : zexp) : Prop := match zkind e with KU a => P a | _ => True end.
(** No shift has a wrong maximum. *)
Fixpoint smax_ok (e : zexp) : Prop :=
  match e with
  | ZFVal _ | ZBVal _ | ZUVal _ _ | ZId _ _ => True
  | ZFBin _ l r | ZCmp _ l r | ZBBin _ l r => smax_ok l /\ smax_ok r
  | ZPow e _ | ZBNot e | ZUNot _ e => smax_ok e
  | ZUBin _ op l r => smax_ok l /\ smax_ok r /\ match op with USub => annP (fun a => fval (umax a) < pow2 (required_bits - 2)) r | _ => True end
  | ZShl a e k => smax_ok e /\ annP (fun ae => shl_ok (uw a) k (fval (umax ae))) e
  | ZShr a e _ => smax_ok e /\ annP (fun ae => shr_ok (uw a) (fval (umax ae))) e
  | ZCond _ c x y => smax_ok c /\ smax_ok x /\ smax_ok y
  | ZSel _ es i => smax_ok i /\ (fix go (l : list zexp) : Prop := match l with [] => True | e :: r => smax_ok e /\ go r end) es
  end.
Fixpoint smax_ok_stmt (s : zstmt) : Prop :=
  match s with
  | ZReturn es | ZLog _ es | ZEmbed _ _ es => Forall smax_ok es
  | ZDef _ e | ZAssert e _ => smax_ok e
  | ZIf c a b => smax_ok c /\ (fix go (l : list zstmt) : Prop := match l with [] => True | s :: r => smax_ok_stmt s /\ go r end) a /\
                 (fix go (l : list zstmt) : Prop := match l with [] => True | s :: r => smax_ok_stmt s /\ go r end) b
  end.
Definition smax_ok_prog (p : zprog) : Prop := Forall smax_ok_stmt (zbody p).
(** The same, except that the maximum of a shift that is an operand of a bitwise operator does not matter: only its bits are used. *)
Definition mopw (op : uop) (P : zexp -> Prop) (l : zexp) : Prop :=
  match op with UXor | UAnd | UOr => match l with ZShl _ e _ | ZShr _ e _ => P e | _ => P l end | _ => P l end.
Fixpoint max_ok (e : zexp) : Prop :=
  match e with
  | ZFVal _ | ZBVal _ | ZUVal _ _ | ZId _ _ => True
  | ZFBin _ l r | ZCmp _ l r | ZBBin _ l r => max_ok l /\ max_ok r
  | ZPow e _ | ZBNot e | ZUNot _ e => max_ok e
  | ZUBin _ op l r => mopw op max_ok l /\ mopw op max_ok r /\ match op with USub => annP (fun a => fval (umax a) < pow2 (required_bits - 2)) r | _ => True end
  | ZShl a e k => max_ok e /\ annP (fun ae => shl_ok (uw a) k (fval (umax ae))) e
  | ZShr a e _ => max_ok e /\ annP (fun ae => shr_ok (uw a) (fval (umax ae))) e
  | ZCond _ c x y => max_ok c /\ max_ok x /\ max_ok y
  | ZSel _ es i => max_ok i /\ (fix go (l : list zexp) : Prop := match l with [] => True | e :: r => max_ok e /\ go r end) es
  end.
Fixpoint max_ok_stmt (s : zstmt) : Prop :=
  match s with
  | ZReturn es | ZLog _ es | ZEmbed _ _ es => Forall max_ok es
  | ZDef _ e | ZAssert e _ => max_ok e
  | ZIf c a b => max_ok c /\ (fix go (l : list zstmt) : Prop := match l with [] => True | s :: r => max_ok_stmt s /\ go r end) a /\
                 (fix go (l : list zstmt) : Prop := match l with [] => True | s :: r => max_ok_stmt s /\ go r end) b
  end.
Definition max_ok_prog (p : zprog) : Prop := Forall max_ok_stmt (zbody p).
End UintOpt.
