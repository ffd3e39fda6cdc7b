(** Model of the code generator: /repo/zokrates_codegen/src/lib.rs and utils.rs (line numbers below refer to lib.rs
    unless said otherwise). The flattener is a state monad that writes flat statements and may panic. *)
From Coq Require Import ZArith NArith List Bool Lia.
From Verif Require Import PField SMap IR Interp Bits Flat Zir.
Import ListNotations.
Open Scope Z_scope.

(** RuntimeError labels (common/error.rs); opaque numbers. *)
Definition eBitness : Z := 1.
Definition eSum : Z := 2.
Definition eEqual : Z := 3.
Definition eLe : Z := 4.
Definition eConstantLtSum : Z := 5.
Definition eOr : Z := 6.
Definition eXor : Z := 7.
Definition eInverse : Z := 8.
Definition eEuclidean : Z := 9.
Definition eShaXor : Z := 10.
Definition eDivision : Z := 11.
Definition eArgumentBitness : Z := 12.
Definition eSelectRangeCheck : Z := 13.
Definition eIncompleteDynamicRange : Z := 14.

Section Codegen.
Context {PF : PrimeField}.

(** l.131-139 Flattener{next_var_idx, layout, bits_cache}. Hash maps become association lists, the latest insertion first.
    The boolean attached to a cached decomposition is ghost: it tells whether the cached bits are known to represent the
    key's value itself (true), or only its value modulo 2^length (false). It has no influence on the other results. *)
Record st := mkSt { nxt : nat; lay : list (ident * var); cache : list (fexp * (list fexp * bool)) }.

Definition M (A : Type) := st -> option (A * st * list fstmt).
Definition ret {A} (a : A) : M A := fun s => Some (a, s, []).
Definition bind {A B} (m : M A) (k : A -> M B) : M B := fun s =>
  match m s with
  | None => None
  | Some (a, s1, o1) => match k a s1 with None => None | Some (b, s2, o2) => Some (b, s2, o1 ++ o2) end
  end.
(** a panic *)
Definition fail {A} : M A := fun _ => None.
Definition emits (l : list fstmt) : M unit := fun s => Some (tt, s, l).
Definition emit (x : fstmt) : M unit := emits [x].
Definition assertM (b : bool) : M unit := if b then ret tt else fail.
Notation "x <- m ;; k" := (bind m (fun x => k)) (at level 61, m at next level, right associativity).
Notation "m ;;; k" := (bind m (fun _ => k)) (at level 61, right associativity).

Fixpoint mapM {A B} (f : A -> M B) (l : list A) : M (list B) :=
  match l with
  | [] => ret []
  | x :: r => y <- f x ;; ys <- mapM f r ;; ret (y :: ys)
  end.
(** [into_iter().zip(..).map(..)]: stops at the shorter list *)
Fixpoint zipM {A B C} (f : A -> B -> M C) (l : list A) (r : list B) : M (list C) :=
  match l, r with
  | x :: l', y :: r' => z <- f x y ;; zs <- zipM f l' r' ;; ret (z :: zs)
  | _, _ => ret []
  end.

(** l.2968-2978 issue_new_variable, use_sym *)
Definition fresh : M var := fun s => Some (vnew (nxt s), mkSt (S (nxt s)) (lay s) (cache s), []).
Fixpoint freshn (n : nat) : M (list var) :=
  match n with O => ret [] | S k => v <- fresh ;; vs <- freshn k ;; ret (v :: vs) end.
(** layout.insert / layout.get *)
Definition set_lay (x : ident) (v : var) : M unit := fun s => Some (tt, mkSt (nxt s) ((x, v) :: lay s) (cache s), []).
Fixpoint lookup (x : ident) (l : list (ident * var)) : option var :=
  match l with [] => None | (y, v) :: r => if x =? y then Some v else lookup x r end.
Definition get_lay (x : ident) : M var := fun s =>
  match lookup x (lay s) with Some v => Some (v, s, []) | None => None end.
(** bits_cache.insert / bits_cache.get *)
Fixpoint clookup (k : fexp) (l : list (fexp * (list fexp * bool))) : option (list fexp * bool) :=
  match l with [] => None | (k', e) :: r => if fexp_eqb k k' then Some e else clookup k r end.
Definition cget (k : fexp) : M (option (list fexp * bool)) := fun s => Some (clookup k (cache s), s, []).
Definition cput (k : fexp) (bits : list fexp) (exact : bool) : M unit := fun s =>
  Some (tt, mkSt (nxt s) (lay s) ((k, (bits, exact)) :: cache s), []).

(** l.208-264 FlatUExpression: a field part, or bits, or both. *)
Inductive fu := UF (f : fexp) (bits : option (list fexp)) | UB (bits : list fexp).

(** utils.rs:5-34 flat_expression_from_bits: weights by powers of two, least significant (last) bit first, balanced sum *)
Fixpoint weigh (i : nat) (l : list fexp) : list (F * fexp) :=
  match l with [] => [] | e :: r => (of_Z (pow2 i), e) :: weigh (S i) r end.
Fixpoint ffb_aux (fuel : nat) (l : list (F * fexp)) : fexp :=
  match fuel with
  | O => XVal f0
  | S k =>
      match l with
      | [] => XVal f0
      | [(c, e)] => XMul (XVal c) e
      | _ => let h := Nat.div (length l) 2 in XAdd (ffb_aux k (firstn h l)) (ffb_aux k (skipn h l))
      end
  end.
Definition ffb (v : list fexp) : fexp := ffb_aux (length v) (weigh 0 (rev v)).

(** l.253-264 get_field_unchecked *)
Definition getf (u : fu) : fexp := match u with UF f _ => f | UB b => ffb b end.
Definition getbits (u : fu) : option (list fexp) := match u with UF _ b => b | UB b => Some b end.
Definition bitsM (u : fu) : M (list fexp) := match getbits u with Some b => ret b | None => fail end.

(** l.268-282 define *)
Definition define (e : fexp) : M var :=
  match e with
  | XId v => ret v
  | e => v <- fresh ;; emit (XDef v e None) ;;; ret v
  end.
(** always a new variable: `let id = use_sym(); push(definition(id, e))` *)
Definition newdef (e : fexp) : M var := v <- fresh ;; emit (XDef v e None) ;;; ret v.
(** `if e.is_linear() { e } else { new definition }` and l.2897-2912 identify_expression *)
Definition linearise (e : fexp) : M fexp := if is_linear e then ret e else v <- newdef e ;; ret (XId v).

Definition fsum (es : list fexp) : fexp := fold_left XAdd es (XVal f0).
Definition one : fexp := XVal f1.
Definition bitness (e : fexp) : fstmt := XCond e (XMul e e) eBitness.

(** zokrates_field/src/lib.rs:185-197 bits() *)
Definition fbits (c : F) : nat := Nat.max 1 (Z.to_nat (if fval c =? 0 then 0 else Z.log2 (fval c) + 1)).
(** zokrates_field max_value() = p - 1 *)
Definition fmax : F := of_Z (pp - 1).

(** l.1904-2010 get_bits_unchecked *)
Definition get_bits (e : fu) (from to : nat) (err : Z) : M (list fexp) :=
  assertM (Nat.leb from required_bits) ;;; assertM (Nat.leb to required_bits) ;;;
  match e with
  | UF (XVal x) _ =>
      cput (XVal x) (map XVal (solve_bits to x)) (fval x <? pow2 to) ;;;
      emits (if Nat.leb from to && (pow2 to <=? fval x) then [XNote true] else []) ;;;
      ret (map XVal (solve_bits to x))
  | UB bits => ret bits
  | UF _ (Some bits) => ret bits
  | UF k None =>
      hit <- cget k ;;
      match hit with
      | Some (bits, exact) =>
          let drop := firstn (length bits - to) bits in
          let res := skipn (length bits - to) bits in
          emits (if negb exact && (Nat.leb from to || Nat.ltb (length bits) to) then [XNote true] else []) ;;;
          emits (if Nat.ltb to from && Nat.ltb to (length bits) then [XNote false] else []) ;;;
          emit (XCond (XVal f0) (fsum drop) err) ;;;
          ret (repeat (XVal f0) (to - length res) ++ res)
      | None =>
          let from' := Nat.max from to in
          vs <- freshn from' ;;
          emit (XDir vs (SBits from') [k]) ;;;
          let bits := map XId vs in
          emits (map bitness bits) ;;;
          emit (XCond k (ffb bits) err) ;;;
          let res := skipn (from' - to) bits in
          cput k res (Nat.eqb from' to) ;;;
          cput (ffb bits) res (Nat.eqb from' to) ;;;
          ret res
      end
  end.

(** l.322-411 constant_le_check *)
Fixpoint clc_loop (a : list fexp) (b : list bool) (prs : list (var * var)) : M (list fexp) :=
  match a, b, prs with
  | ai :: a', true :: b', (run, su) :: prs' =>
      emit (XDef run ai None) ;;;
      emits (match prs' with (_, su') :: _ => [XDef su' (XMul (XId su) (XId run)) None] | [] => [] end) ;;;
      clc_loop a' b' prs'
  | ai :: a', false :: b', (run, su) :: prs' =>
      emits (match prs' with (_, su') :: _ => [XDef su' (XId su) None] | [] => [] end) ;;;
      v <- fresh ;;
      emit (XDef v (XMul (XSub one (XId su)) (XSub one ai)) None) ;;;
      rest <- clc_loop a' b' prs' ;;
      ret (XSub (XAdd (XSub one (XId su)) (XSub one ai)) (XId v) :: rest)
  | _, _, _ => ret []
  end.
Definition constant_le_check (a : list fexp) (b : list bool) : M (list fexp) :=
  assertM (Nat.eqb (length a) (length b)) ;;;
  if forallb (fun x => x) b then
    vs <- mapM define a ;; emits (map (fun v => bitness (XId v)) vs) ;;; ret []
  else
    prs <- mapM (fun _ : bool => r <- fresh ;; s <- fresh ;; ret (r, s)) b ;;
    emits (match prs with (_, su) :: _ => [XDef su one None] | [] => [] end) ;;;
    clc_loop a b prs.

(** l.423-466 eq_check *)
Definition eq_check (left right : fexp) : M fexp :=
  l <- define left ;; r <- define right ;;
  let x := XSub (XId l) (XId r) in
  y <- fresh ;; m <- fresh ;;
  emit (XDir [y; m] SConditionEq [x]) ;;;
  emit (XCond (XId y) (XMul x (XId m)) eEqual) ;;;
  let res := XSub one (XId y) in
  emit (XCond (XVal f0) (XMul res x) eEqual) ;;;
  ret res.

(** l.476-502 enforce_constant_le_check_bits *)
Definition enforce_le_bits (a : list fexp) (c : list bool) (err : Z) : M unit :=
  conds <- constant_le_check a c ;;
  emit (XCond (XVal f0) (XSub (fsum conds) (XVal (of_Z (Z.of_nat (length conds))))) err).
(** l.511-541 enforce_constant_le_check *)
Definition enforce_constant_le (e : fexp) (c : F) (err : Z) : M unit :=
  bits <- get_bits (UF e None) (fbits c) (fbits c) err ;;
  enforce_le_bits bits (skipn (required_bits - fbits c) (to_bits_be c)) err.
(** l.550-568 enforce_constant_lt_check *)
Definition enforce_constant_lt (e : fexp) (c : F) (err : Z) : M unit :=
  if Feqb c f0 then emit (XCond (XVal f0) one err)
  else enforce_constant_le e (fsub c f1) err.

(** l.680-718 constant_field_le_check *)
Definition constant_field_le (e : fexp) (c : F) : M fexp :=
  bits <- get_bits (UF e None) required_bits required_bits eConstantLtSum ;;
  enforce_le_bits bits (to_bits_be fmax) eLe ;;;
  conds <- constant_le_check bits (to_bits_be c) ;;
  eq_check (XVal (of_Z (Z.of_nat (length conds)))) (fsum conds).
(** l.651-664 constant_lt_check *)
Definition constant_lt (e : fexp) (c : F) : M fexp :=
  if Feqb c f0 then ret (XVal f0) else constant_field_le e (fsub c f1).

(** l.741-789 lt_check *)
Definition lt_check (l r : fexp) (w : nat) : M fexp :=
  match l, r with
  | x, XVal c => constant_lt x c
  | XVal c, x => constant_lt (XSub (XVal fmax) x) (fsub fmax c)
  | l, r =>
      li <- define l ;; ri <- define r ;;
      bits <- get_bits (UF (XAdd (XVal (of_Z (pow2 w))) (XSub (XId li) (XId ri))) None) (S w) (S w) eSum ;;
      match bits with b0 :: _ => ret (XSub one b0) | [] => fail end
  end.
(** l.720-739 le_check *)
Definition le_check (l r : fexp) (w : nat) : M fexp :=
  e <- eq_check l r ;; t <- lt_check l r w ;; ret (XAdd e t).

(** l.801-835 FieldLt, operands already flattened *)
Definition safe_width : nat := required_bits - 2.
Definition field_lt (l r : fexp) : M fexp :=
  match l, r with
  | e, XVal c => constant_lt e c
  | XVal c, e => constant_lt (XSub (XVal fmax) e) (fsub fmax c)
  | l, r =>
      enforce_constant_lt l (of_Z (pow2 safe_width)) eIncompleteDynamicRange ;;;
      enforce_constant_lt r (of_Z (pow2 safe_width)) eIncompleteDynamicRange ;;;
      lt_check l r safe_width
  end.

(** l.579-640 flatten_conditional_expression: condition, then branches flattened by the callers *)
Definition cond_flat (cid : var) (x y : fexp) : M fu :=
  xi <- newdef x ;; yi <- newdef y ;;
  t0 <- newdef (XMul (XId cid) (XId xi)) ;;
  t1 <- newdef (XMul (XSub one (XId cid)) (XId yi)) ;;
  res <- newdef (XAdd (XId t0) (XId t1)) ;;
  ret (UF (XId res) None).

(** l.921-941 Or, on bits and booleans *)
Definition or_flat (x y : fexp) : M fexp :=
  v <- fresh ;; emit (XDir [v] SOr [x; y]) ;;;
  emit (XCond (XAdd x (XSub y (XId v))) (XMul x y) eOr) ;;; ret (XId v).

(** l.1237-1279: one bit of default_xor *)
Definition as_val (x y : fexp) : option (F * fexp) :=
  match x, y with
  | XVal n, e => Some (n, e)
  | e, XVal n => Some (n, e)
  | _, _ => None
  end.
Definition xor_bit (x y : fexp) : M fexp :=
  match as_val x y with
  | Some (n, e) =>
      if Feqb n f0 then v <- define e ;; ret (XId v)
      else if Feqb n f1 then v <- define (XSub one e) ;; ret (XId v)
      else fail
  | None =>
      v <- fresh ;; emit (XDir [v] SXor [x; y]) ;;;
      emit (XCond (XAdd x (XSub y (XId v))) (XMul (XAdd x x) y) eXor) ;;; ret (XId v)
  end.
(** l.1797-1811: one bit of And *)
Definition and_bit (x y : fexp) : M fexp :=
  match as_val x y with
  | Some (n, e) => if Feqb n f0 then ret (XVal f0) else if Feqb n f1 then ret e else fail
  | None => v <- define (XMul x y) ;; ret (XId v)
  end.
(** l.1834-1867: one bit of Or *)
Definition or_bit (x y : fexp) : M fexp :=
  match as_val x y with
  | Some (n, e) =>
      if Feqb n f0 then v <- define e ;; ret (XId v) else if Feqb n f1 then ret one else fail
  | None => or_flat x y
  end.
(** l.1402-1412: one bit of Not *)
Definition not_bit (x : fexp) : M fexp := v <- define (XSub one x) ;; ret (XId v).
(** l.1622-1645: one bit of the SHA choice function *)
Definition ch_bit (a b c : fexp) : M fexp :=
  v <- fresh ;; emit (XDir [v] SShaCh [a; b; c]) ;;;
  emit (XCond (XSub (XId v) c) (XMul a (XSub b c)) eShaXor) ;;; ret (XId v).
(** l.1695-1732: one bit of the SHA majority function; the condition defining [bc] is an introduction (see Flat.XDef) *)
Definition maj_bit (a b c : fexp) : M fexp :=
  maj <- fresh ;; bc <- fresh ;;
  emit (XDir [maj] SShaMaj [a; b; c]) ;;;
  emit (XDef bc (XMul b c) (Some eShaXor)) ;;;
  emit (XCond (XSub (XId bc) (XId maj)) (XMul (XSub (XAdd (XId bc) (XId bc)) (XAdd b c)) a) eShaXor) ;;;
  ret (XId maj).
Fixpoint zip3M (f : fexp -> fexp -> fexp -> M fexp) (a b c : list fexp) : M (list fexp) :=
  match a, b, c with
  | x :: a', y :: b', z :: c' => v <- f x y z ;; vs <- zip3M f a' b' c' ;; ret (v :: vs)
  | _, _, _ => ret []
  end.

(** l.1285-1356 euclidean_division, operands already flattened *)
Definition euclid (w : nat) (left right : fexp) : M (fexp * fexp) :=
  n <- linearise left ;; d <- linearise right ;;
  q <- fresh ;; r <- fresh ;;
  emit (XDir [q; r] SEuclid [n; d]) ;;;
  _ <- get_bits (UF (XId q) None) w w eSum ;;
  _ <- get_bits (UF (XId r) None) w w eSum ;;
  _ <- get_bits (UF (XAdd (XSub (XId r) d) (XVal (of_Z (pow2 w)))) None) w w eSum ;;
  emit (XCond (XSub n (XId r)) (XMul (XId q) d) eEuclidean) ;;;
  ret (XId q, XId r).

(** l.1872-1886: sum of the reduced bits *)
Fixpoint red_field (acc : fexp) (bits : list fexp) : fexp :=
  match bits with
  | [] => acc
  | b :: r => red_field (XAdd acc (XMul (XVal (of_Z (pow2 (length r)))) b)) r
  end.
(** l.1869-1895: reduction of a uint result; Unknown panics (ShouldReduce::to_bool, zir/uint.rs) *)
Definition finish_uint (a : ann) (res : fu) : M fu :=
  match ured a with
  | SRUnknown => fail
  | SRFalse => ret res
  | SRTrue =>
      bits <- get_bits res (fbits (umax a)) (uw a) eSum ;;
      ret (UF (if Nat.ltb (uw a) (fbits (umax a)) then red_field (XVal f0) bits else getf res) (Some bits))
  end.

(** should_reduce.to_bool() of a uint expression *)
Definition is_red (e : zexp) : bool :=
  match zkind e with KU a => match ured a with SRTrue => true | _ => false end | _ => false end.
Definition ubits_of (e : zexp) : nat := match zkind e with KU a => fbits (umax a) | _ => 0%nat end.

(** l.2163-2225 Pow: binary digits of the exponent, least significant first, without leading zeroes *)
Fixpoint pos_bits (p : positive) : list bool :=
  match p with xH => [true] | xO q => false :: pos_bits q | xI q => true :: pos_bits q end.
Definition exp_bits (n : N) : list bool := match n with N0 => [] | Npos p => pos_bits p end.
Fixpoint pow_squares (prev : fexp) (rest : list bool) : M (list fexp) :=
  match rest with
  | [] => ret []
  | _ :: r => v <- newdef (XMul prev prev) ;; vs <- pow_squares (XId v) r ;; ret (XId v :: vs)
  end.
Definition pow_powers (base : fexp) (bits : list bool) : M (list fexp) :=
  match bits with [] => ret [] | _ :: r => vs <- pow_squares base r ;; ret (base :: vs) end.
Fixpoint pow_fold (acc : fexp) (bits : list bool) (powers : list fexp) : M fexp :=
  match bits, powers with
  | true :: bs, p :: ps => v <- newdef (XMul acc p) ;; pow_fold (XId v) bs ps
  | false :: bs, _ :: ps => pow_fold acc bs ps
  | _, _ => ret acc
  end.

(** l.2039-2073: the final fold of flatten_select_expression *)
Fixpoint select_fold (rc res : fexp) (l : list (fexp * fu)) : M (fexp * fexp) :=
  match l with
  | [] => ret (rc, res)
  | (c, e) :: r => v <- newdef (XMul c (getf e)) ;; select_fold (XAdd rc c) (XAdd res (XId v)) r
  end.

(** flatten_boolean_expression (l.778-1000), flatten_field_expression (l.2081-2290), flatten_uint_expression
    (l.1364-1898), flatten_select_expression (l.2012-2073): one function on the single expression type; [UF e None] wraps
    a field or boolean result as flatten_expression (l.1199-1215) does. *)
Definition isU (k : kind) (res : M fu) : M fu :=
  match k with KU a => r <- res ;; finish_uint a r | _ => res end.

Fixpoint flat (e : zexp) : M fu :=
  match e with
  | ZFVal c => ret (UF (XVal c) None)
  | ZBVal b => ret (UF (XVal (f_of_bool b)) None)
  | ZUVal a n => finish_uint a (UF (XVal (of_Z n)) None)
  | ZId (KU a) x =>
      v <- get_lay x ;; hit <- cget (XId v) ;;
      match hit with
      | Some (bits, _) => assertM (Nat.eqb (length bits) (uw a)) ;;; finish_uint a (UF (XId v) (Some bits))
      | None => finish_uint a (UF (XId v) None)
      end
  | ZId _ x => v <- get_lay x ;; ret (UF (XId v) None)
  | ZFBin op l r =>
      x <- flat l ;; y <- flat r ;;
      match op with
      | FAdd => a <- linearise (getf x) ;; b <- linearise (getf y) ;; ret (UF (XAdd a b) None)
      | FSub => a <- linearise (getf x) ;; b <- linearise (getf y) ;; ret (UF (XSub a b) None)
      | FMul => a <- linearise (getf x) ;; b <- linearise (getf y) ;; ret (UF (XMul a b) None)
      | FDiv =>
          a <- newdef (getf x) ;; b <- newdef (getf y) ;; v <- fresh ;;
          emit (XDir [v] SDiv [XId a; XId b]) ;;;
          emit (XCond (XId a) (XMul (XId b) (XId v)) eDivision) ;;;
          ret (UF (XId v) None)
      end
  | ZPow e n =>
      x <- flat e ;; assertM (is_linear (getf x)) ;;;
      ps <- pow_powers (getf x) (exp_bits n) ;;
      r <- pow_fold one (exp_bits n) ps ;; ret (UF r None)
  | ZCmp CFLt l r => x <- flat l ;; y <- flat r ;; z <- field_lt (getf x) (getf y) ;; ret (UF z None)
  | ZCmp CFEq l r => x <- flat l ;; y <- flat r ;; z <- eq_check (getf x) (getf y) ;; ret (UF z None)
  | ZCmp CFLe l r =>
      x <- flat l ;; y <- flat r ;; t <- field_lt (getf x) (getf y) ;;
      x' <- flat l ;; y' <- flat r ;; q <- eq_check (getf x') (getf y') ;; ret (UF (XAdd q t) None)
  | ZCmp CULt l r =>
      assertM (is_red l && is_red r) ;;;
      x <- flat l ;; y <- flat r ;;
      z <- lt_check (getf x) (getf y) (match zkind l with KU a => uw a | _ => 0%nat end) ;; ret (UF z None)
  | ZCmp CUEq l r =>
      assertM (is_red l && is_red r) ;;;
      x <- flat l ;; y <- flat r ;; z <- eq_check (getf x) (getf y) ;; ret (UF z None)
  | ZCmp CULe l r =>
      assertM (is_red l && is_red r) ;;;
      x <- flat l ;; y <- flat r ;;
      t <- lt_check (getf x) (getf y) (match zkind l with KU a => uw a | _ => 0%nat end) ;;
      x' <- flat l ;; y' <- flat r ;; q <- eq_check (getf x') (getf y') ;; ret (UF (XAdd q t) None)
  | ZBBin op l r =>
      x <- flat l ;; y <- flat r ;;
      match op with
      | BEq => let d := XSub (getf x) (getf y) in
               v <- newdef (XMul d d) ;; ret (UF (XSub one (XId v)) None)
      | BOr => assertM (is_linear (getf x) && is_linear (getf y)) ;;;
               z <- or_flat (getf x) (getf y) ;; ret (UF z None)
      | BAnd => assertM (is_linear (getf x) && is_linear (getf y)) ;;;
                v <- newdef (XMul (getf x) (getf y)) ;; ret (UF (XId v) None)
      end
  | ZBNot e => x <- flat e ;; ret (UF (XSub one (getf x)) None)
  | ZUBin a op l r =>
      res <- (let default :=
                x <- flat l ;; y <- flat r ;; bx <- bitsM x ;; by_ <- bitsM y ;;
                zs <- zipM xor_bit bx by_ ;; ret (UB zs) in
              match op with
              | UAdd => x <- flat l ;; y <- flat r ;; u <- linearise (getf x) ;; v <- linearise (getf y) ;; ret (UF (XAdd u v) None)
              | USub =>
                  x <- flat l ;; y <- flat r ;; u <- linearise (getf x) ;; v <- linearise (getf y) ;;
                  ret (UF (XAdd (XVal (of_Z (pow2 (Nat.max (ubits_of r) (uw a))))) (XSub u v)) None)
              | UMul => x <- flat l ;; y <- flat r ;; u <- linearise (getf x) ;; v <- linearise (getf y) ;;
                        z <- newdef (XMul u v) ;; ret (UF (XId z) None)
              | UDiv => x <- flat l ;; y <- flat r ;; qr <- euclid (uw a) (getf x) (getf y) ;; ret (UF (fst qr) None)
              | URem => x <- flat l ;; y <- flat r ;; qr <- euclid (uw a) (getf x) (getf y) ;; ret (UF (snd qr) None)
              | UAnd =>
                  x <- flat l ;; y <- flat r ;; bx <- bitsM x ;; by_ <- bitsM y ;;
                  assertM (Nat.eqb (length bx) (uw a) && Nat.eqb (length by_) (uw a)) ;;;
                  zs <- zipM and_bit bx by_ ;; ret (UB zs)
              | UOr =>
                  x <- flat l ;; y <- flat r ;; bx <- bitsM x ;; by_ <- bitsM y ;;
                  assertM (Nat.eqb (length bx) (uw a) && Nat.eqb (length by_) (uw a)) ;;;
                  zs <- zipM or_bit bx by_ ;; ret (UB zs)
              | UXor =>
                  match l, r with
                  | ZUBin _ UAnd ea eb, ZUBin _ UAnd (ZUNot _ ea') ec =>
                      if zexp_eqb ea' ea then
                        x <- flat ea ;; y <- flat eb ;; z <- flat ec ;;
                        bx <- bitsM x ;; by_ <- bitsM y ;; bz <- bitsM z ;;
                        zs <- zip3M ch_bit bx by_ bz ;; ret (UB zs)
                      else default
                  | ZUBin _ UXor (ZUBin _ UAnd ea eb) (ZUBin _ UAnd eaa ec), ZUBin _ UAnd ebb ecc =>
                      if zexp_eqb eaa ea && zexp_eqb ebb eb && zexp_eqb ecc ec then
                        x <- flat ea ;; y <- flat eb ;; z <- flat ec ;;
                        bx <- bitsM x ;; by_ <- bitsM y ;; bz <- bitsM z ;;
                        zs <- zip3M maj_bit bx by_ bz ;; ret (UB zs)
                      else default
                  | _, _ => default
                  end
              end) ;;
      finish_uint a res
  | ZUNot a e =>
      x <- flat e ;; bx <- bitsM x ;; assertM (Nat.eqb (length bx) (uw a)) ;;;
      zs <- mapM not_bit bx ;; finish_uint a (UB zs)
  | ZShl a e k =>
      x <- flat e ;; bx <- bitsM x ;; assertM (Nat.eqb (length bx) (uw a)) ;;;
      finish_uint a (UB (skipn k bx ++ repeat (XVal f0) (Nat.min k (uw a))))
  | ZShr a e k =>
      x <- flat e ;; bx <- bitsM x ;; assertM (Nat.eqb (length bx) (uw a)) ;;;
      finish_uint a (UB (repeat (XVal f0) (Nat.min k (uw a)) ++ firstn (uw a - Nat.min k (uw a)) bx))
  | ZCond k c x y =>
      isU k (cf <- flat c ;; cid <- newdef (getf cf) ;; xf <- flat x ;; yf <- flat y ;;
             cond_flat cid (getf xf) (getf yf))
  | ZSel k es i =>
      isU k (l <- (fix go (n : nat) (es : list zexp) : M (list (fexp * fu)) :=
                     match es with
                     | [] => ret []
                     | e :: r =>
                         assertM (is_red i) ;;;
                         iv <- finish_uint (mkAnn 32 (of_Z (Z.of_nat n)) SRTrue) (UF (XVal (of_Z (Z.of_nat n))) None) ;;
                         x <- flat i ;; c <- eq_check (getf iv) (getf x) ;;
                         y <- flat e ;; rest <- go (S n) r ;; ret ((c, y) :: rest)
                     end) 0%nat es ;;
             rr <- select_fold (XVal f0) (XVal f0) l ;;
             emit (XCond (fst rr) one eSelectRangeCheck) ;;;
             ret (UF (snd rr) None))
  end.

(** ** Assertions *)
(** l.2783-2806 enforce_naive_assertion *)
Definition naive_assert (e : zexp) (err : Z) : M unit :=
  x <- flat e ;;
  emit (if is_linear (getf x) then XCond (getf x) one err else XCond one (getf x) err).
(** l.2815-2843 enforce_not_zero_assertion *)
Definition not_zero_assert (x : fexp) : M unit :=
  v <- define x ;; i <- fresh ;;
  emit (XDir [i] SDiv [one; XId v]) ;;;
  emit (XCond one (XMul (XId i) (XId v)) eInverse).
(** l.2852-2883 flatten_equality_assertion *)
Definition eq_assert (l r : fexp) (err : Z) : M unit :=
  match l, r with
  | XMul a b, z | z, XMul a b =>
      z' <- linearise z ;; a' <- linearise a ;; b' <- linearise b ;; emit (XCond z' (XMul a' b') err)
  | x, z => z' <- linearise z ;; x' <- linearise x ;; emit (XCond z' (XMul x' one) err)
  end.
(** the dynamic cases of FieldLt / FieldLe / UintLt / UintLe assertions *)
Definition enforce_one (e : fexp) (err : Z) : M unit := emit (XCond e one err).
Definition field_cmp_assert (le : bool) (l r : fexp) (err : Z) : M unit :=
  let enforce := if le then enforce_constant_le else enforce_constant_lt in
  match l, r with
  | e, XVal c => enforce e c err
  | XVal c, e => enforce (XSub (XVal fmax) e) (fsub fmax c) err
  | l, r =>
      enforce_constant_lt l (of_Z (pow2 safe_width)) eIncompleteDynamicRange ;;;
      enforce_constant_lt r (of_Z (pow2 safe_width)) eIncompleteDynamicRange ;;;
      e <- (if le then le_check else lt_check) l r safe_width ;; enforce_one e err
  end.
Definition uint_cmp_assert (le : bool) (w : nat) (l r : fexp) (err : Z) : M unit :=
  let enforce := if le then enforce_constant_le else enforce_constant_lt in
  let max := fsub (of_Z (pow2 w)) f1 in
  match l, r with
  | e, XVal c => enforce e c err
  | XVal c, e => enforce (XSub (XVal max) e) (fsub max c) err
  | l, r => e <- (if le then le_check else lt_check) l r w ;; enforce_one e err
  end.
Definition is_zero_u (e : zexp) : bool := match e with ZUVal _ n => n =? 0 | _ => false end.
Definition is_zero_f (e : zexp) : bool := match e with ZFVal c => Feqb c f0 | _ => false end.

(** l.2437-2690, the Assertion case of flatten_statement. The conjunction iterator (zir/mod.rs:827-852) yields the right
    operand's conjuncts first. *)
Fixpoint flat_assert (e : zexp) (err : Z) : M unit :=
  match e with
  | ZBBin BAnd l r => flat_assert r err ;;; flat_assert l err
  | ZCmp CFEq l r => x <- flat l ;; y <- flat r ;; eq_assert (getf x) (getf y) err
  | ZCmp CUEq l r => x <- flat l ;; y <- flat r ;; eq_assert (getf x) (getf y) err
  | ZBBin BEq l r => x <- flat l ;; y <- flat r ;; eq_assert (getf x) (getf y) err
  | ZCmp CFLt l r => x <- flat l ;; y <- flat r ;; field_cmp_assert false (getf x) (getf y) err
  | ZCmp CFLe l r => x <- flat l ;; y <- flat r ;; field_cmp_assert true (getf x) (getf y) err
  | ZCmp CULt l r => x <- flat l ;; y <- flat r ;;
      uint_cmp_assert false (match zkind l with KU a => uw a | _ => 0%nat end) (getf x) (getf y) err
  | ZCmp CULe l r => x <- flat l ;; y <- flat r ;;
      uint_cmp_assert true (match zkind l with KU a => uw a | _ => 0%nat end) (getf x) (getf y) err
  | ZBNot (ZCmp CUEq l r) =>
      if is_zero_u l then x <- flat r ;; not_zero_assert (getf x)
      else if is_zero_u r then x <- flat l ;; not_zero_assert (getf x)
      else naive_assert e err
  | ZBNot (ZCmp CFEq l r) =>
      if is_zero_f l then x <- flat r ;; not_zero_assert (getf x)
      else if is_zero_f r then x <- flat l ;; not_zero_assert (getf x)
      else naive_assert e err
  | e => naive_assert e err
  end.

(** ** Built-in functions *)
(** l.1122-1190 flatten_embed_call_aux with common/embed.rs:560-643 unpack_to_bitwidth *)
Definition unpack (n : nat) (x : fexp) : M (list fexp) :=
  i0 <- define x ;; vs <- freshn n ;;
  emit (XDir vs (SBits n) [XId i0]) ;;;
  emits (map (fun v => bitness (XId v)) (rev vs)) ;;;
  emit (XCond (ffb (map XId vs)) (XMul (XId i0) one) eSum) ;;;
  mapM (fun v => u <- newdef (XId v) ;; ret (XId u)) vs.
Definition bool_const (e : fexp) : M bool :=
  match e with
  | XVal n => if Feqb n f1 then ret true else if Feqb n f0 then ret false else fail
  | _ => fail
  end.
(** l.1037-1116 flatten_embed_call, arguments already flattened *)
Definition embed_call (em : embed) (ps : list fu) : M (list fu) :=
  match em, ps with
  | EFieldToBool, [p] => ret [p]
  | EToBits w, [p] => bs <- bitsM p ;; assertM (Nat.eqb (length bs) w) ;;; ret (map (fun b => UF b None) bs)
  | EFromBits w, ps => assertM (Nat.eqb (length ps) w) ;;; ret [UB (map getf ps)]
  | EBitLe n, ps =>
      vs <- mapM define (map getf (firstn n ps)) ;;
      cs <- mapM bool_const (map getf (skipn n ps)) ;;
      conds <- constant_le_check (map XId vs) cs ;;
      r <- eq_check (XVal (of_Z (Z.of_nat (length conds)))) (fsum conds) ;;
      ret [UF r None]
  | EUnpack n, [p] => bs <- unpack n (getf p) ;; ret (map (fun b => UF b None) bs)
  | _, _ => fail
  end.

(** l.2409-2432 and 2708-2726: bind a name to a flat expression, reusing the variable of an identifier *)
Definition bind_name (x : ident) (e : fexp) : M var :=
  match e with
  | XId v => set_lay x v ;;; ret v
  | e => v <- fresh ;; set_lay x v ;;; emit (XDef v e None) ;;; ret v
  end.
Definition is_uint (e : zexp) : bool := match zkind e with KU _ => true | _ => false end.
(** ghost: the bits registered with a definition represent its value itself *)
Definition def_exact (e : zexp) (u : fu) : bool :=
  match u with
  | UB _ => true
  | UF _ _ => is_red e || match zkind e with KU a => Nat.leb (fbits (umax a)) (uw a) | _ => false end
  end.

(** l.2343-2780 flatten_statement *)
Fixpoint flat_stmt (s : zstmt) : M unit :=
  match s with
  | ZReturn es =>
      us <- mapM flat es ;;
      emits (zip2 (fun i u => XDef (vpub i) (getf u) None) (seq 0 (length us)) us)
  | ZDef x e =>
      u <- flat e ;; v <- bind_name x (getf u) ;;
      match getbits u with Some bits => cput (XId v) bits (def_exact e u) | None => ret tt end
  | ZIf c ss1 ss2 =>
      x <- flat c ;; _ <- newdef (getf x) ;;
      (fix go (l : list zstmt) : M unit := match l with [] => ret tt | s :: r => flat_stmt s ;;; go r end) ss1 ;;;
      (fix go (l : list zstmt) : M unit := match l with [] => ret tt | s :: r => flat_stmt s ;;; go r end) ss2
  | ZAssert e err => flat_assert e err
  | ZEmbed xs em es =>
      ps <- mapM (fun e => assertM (negb (is_uint e) || is_red e) ;;; flat e) es ;;
      rs <- embed_call em ps ;;
      assertM (Nat.eqb (length xs) (length rs)) ;;;
      vs <- zipM (fun x u => bind_name x (getf u)) xs rs ;;
      match em with
      | EFromBits _ =>
          us <- mapM flat es ;;
          match vs with v :: _ => cput (XId v) (map getf us) true | [] => fail end
      | _ => ret tt
      end
  | ZLog fmt es => us <- mapM flat es ;; emit (XLog fmt (map getf us))
  end.
Fixpoint flat_stmts_z (ss : list zstmt) : M unit :=
  match ss with [] => ret tt | s :: r => flat_stmt s ;;; flat_stmts_z r end.

(** l.2938-2966 use_parameter *)
Definition use_param (p : zparam) : M param :=
  v <- fresh ;; set_lay (zpid p) v ;;;
  match zptype p with
  | PF_ => ret tt
  | PB_ => emit (XCond (XId v) (XMul (XId v) (XId v)) eArgumentBitness)
  | PU_ w => _ <- get_bits (UF (XId v) None) w w eSum ;; ret tt
  end ;;;
  ret (mkParam v (zpprivate p)).

(** l.80-103 from_program_and_config *)
Definition init_st : st := mkSt 0 [] [].
Definition codegen_m (p : zprog) : M (list param) :=
  ps <- mapM use_param (zargs p) ;; flat_stmts_z (zbody p) ;;; ret ps.
Definition codegen (p : zprog) : option (list param * list fstmt) :=
  match codegen_m p init_st with Some (ps, _, em) => Some (ps, em) | None => None end.

(** zokrates_core/src/compile.rs compile: code generation followed by the lowering to R1CS (before optimisation) *)
Definition compile (p : zprog) : option prog :=
  match codegen p with
  | Some (ps, em) => match lower em with Some ss => Some (mkProg ps (zret p) (map Single ss)) | None => None end
  | None => None
  end.
End Codegen.
