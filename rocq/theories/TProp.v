(** Constant propagation on typed programs.
    Models: zokrates_analysis/src/propagation.rs (Propagator), zokrates_ast/src/typed/mod.rs:3481-3695 (Constant). The result [None] is an
    error or a panic of the compiler.
    Not modelled: the bitwise operators of field elements, FloorSub, assembly blocks, Sha256Round and SnarkVerify; expressions are typed
    concretely, so the comparisons of types (l.288-300, l.1250-1260, l.1300-1310, l.1340-1352) never fail. *)
From Coq Require Import String Ascii.
From Coq Require Import ZArith NArith List Bool Lia.
From Verif Require Import PField Interp Bits Zir UintOpt Abi Typed Writes Src SrcTy.
Import ListNotations.
Open Scope Z_scope.

Section TProp.
Context {PF : PrimeField}.

(** ** Equality of expressions (PartialEq is derived) *)
Definition F_dec (a b : F) : {a = b} + {a <> b}.
Proof. destruct (Feqb a b) eqn:E; [left; apply Feqb_eq; exact E|right; intros H; apply Feqb_eq in H; rewrite H in E; discriminate E]. Defined.
Definition w_dec (a b : uwidth) : {a = b} + {a <> b}. Proof. decide equality. Defined.
Fixpoint cty_dec (a b : cty) : {a = b} + {a <> b}.
Proof. decide equality; try apply w_dec; try apply Nat.eq_dec; [apply (list_eq_dec cty_dec)|]. apply list_eq_dec. intros [k t] [k' t']. decide equality. apply string_dec. Defined.
Definition member_dec (a b : string * cty) : {a = b} + {a <> b}.
Proof. destruct a as [k t], b as [k' t']. destruct (string_dec k k') as [->|N]; [|right; congruence]. destruct (cty_dec t t') as [->|N]; [left; reflexivity|right; congruence]. Defined.
Definition tcmp_dec (a b : tcmp) : {a = b} + {a <> b}. Proof. decide equality. Defined.
Definition fop_dec (a b : fop) : {a = b} + {a <> b}. Proof. decide equality. Defined.
Definition bop_dec (a b : bop) : {a = b} + {a <> b}. Proof. decide equality. Defined.
Definition uop_dec (a b : uop) : {a = b} + {a <> b}. Proof. decide equality. Defined.
Ltac decs := first [apply F_dec|apply bool_dec|apply w_dec|apply Z.eq_dec|apply N.eq_dec|apply Nat.eq_dec|apply cty_dec|apply string_dec|apply tcmp_dec|apply fop_dec|apply bop_dec|apply uop_dec
  |apply (list_eq_dec member_dec)|apply (list_eq_dec cty_dec)|apply (list_eq_dec bool_dec)|apply (list_eq_dec string_dec)].
Definition top_dec (a b : top) : {a = b} + {a <> b}. Proof. decide equality; decs. Defined.
Definition pkind_dec (a b : pkind) : {a = b} + {a <> b}. Proof. decide equality; decs. Defined.
Definition core_dec (a b : core) : {a = b} + {a <> b}. Proof. decide equality; decs. Defined.
Definition rid_dec (a b : rid) : {a = b} + {a <> b}.
Proof. destruct a as [[f c] n], b as [[g d] m]. destruct (Nat.eq_dec f g) as [->|N]; [|right; congruence]. destruct (core_dec c d) as [->|N]; [|right; congruence]. destruct (Nat.eq_dec n m) as [->|N]; [left; reflexivity|right; congruence]. Defined.
Fixpoint sexp_dec (a b : sexp) : {a = b} + {a <> b}.
Proof. decide equality; first [decs|apply rid_dec|apply top_dec|apply pkind_dec|apply (list_eq_dec sexp_dec)]. Defined.
Definition sexp_eqb (a b : sexp) : bool := if sexp_dec a b then true else false.
Lemma sexp_eqb_ok : forall a b, sexp_eqb a b = true <-> a = b.
Proof. intros a b. unfold sexp_eqb. destruct (sexp_dec a b) as [->|N]; split; congruence. Qed.

(** ** Literals *)
Definition fl (x : F) : sexp := SOp (OFVal x) [].
Definition bl (b : bool) : sexp := SOp (OBVal b) [].
Definition ul (w : uwidth) (n : Z) : sexp := SOp (OUVal w n) [].
Definition fnum (e : sexp) : option F := match e with SOp (OFVal x) [] => Some x | _ => None end.
Definition bnum (e : sexp) : option bool := match e with SOp (OBVal b) [] => Some b | _ => None end.
Definition unum (e : sexp) : option Z := match e with SOp (OUVal _ n) [] => Some n | _ => None end.
(** the canonical constant of a type with a given value *)
Fixpoint lit (t : cty) (v : value_) {struct v} : sexp :=
  match v with
  | VField x => fl x
  | VBool b => bl b
  | VUint w n => ul w n
  | VArray l => match t with CArray ty n => SOp (OArr ty n (repeat false (length l))) (map (lit ty) l) | _ => SOp OTup [] end
  | VTuple l => match t with CTuple ts => SOp OTup ((fix go l ts := match l, ts with v :: r, t :: s => lit t v :: go r s | _, _ => [] end) l ts) | _ => SOp OTup [] end
  | VStruct l => match t with CStruct ms => SOp (OStr (map fst ms)) ((fix go l ms := match l, ms with (_, v) :: r, (_, t) :: s => lit t v :: go r s | _, _ => [] end) l ms) | _ => SOp OTup [] end
  end.
(** typed/mod.rs:3492-3682 is_constant *)
Fixpoint isc (e : sexp) : bool :=
  match e with
  | SOp op args => match op with OFVal _ | OBVal _ | OUVal _ _ => true | OArr _ _ _ | OTup | OStr _ => forallb isc args | _ => false end
  | SPar k e cs => match k with KRep _ _ | KSlice _ _ _ => isc e && forallb isc cs | _ => false end
  | _ => false
  end.
Definition is_arr (e : sexp) : bool := match e with SOp (OArr _ _ _) _ => true | _ => false end.
(** typed/mod.rs:3525-3620 into_canonical_constant, as the value of the constant. A constant slice must be one of an array value, otherwise
    the code is unreachable. Simplification: a slice beyond the end of the array, which the code truncates, is an error here. *)
Definition ok_opt {A} (o : outcome A) : option A := match o with Ok a => Some a | _ => None end.
Fixpoint cval (e : sexp) : option value_ :=
  match e with
  | SOp op args => match op with
      | OFVal _ | OBVal _ | OUVal _ _ | OArr _ _ _ | OTup | OStr _ => match opt_list (map cval args) with Some vs => ok_opt (sem_op op [] vs) | None => None end
      | _ => None
      end
  | SPar k e cs => match k with
      | KRep _ _ => match cval e, opt_list (map cval cs) with Some v, Some vs => match nums vs with Some ns => match par_op k ns with Some op => ok_opt (sem_op op [] [v]) | None => None end | None => None end | _, _ => None end
      | KSlice _ _ _ => if is_arr e then match cval e, opt_list (map cval cs) with Some v, Some vs => match nums vs with Some ns => match par_op k ns with Some op => ok_opt (sem_op op [] [v]) | None => None end | None => None end | _, _ => None end else None
      | _ => None
      end
  | _ => None
  end.
(** typed/mod.rs Typed::get_type, as far as it is needed: the types of array expressions *)
Fixpoint sty (e : sexp) : option cty :=
  match e with
  | SId t _ => Some t
  | SOp op _ => match op with
      | OSel ty => Some ty | OMem ms m => option_map snd (find (fun q => String.eqb (fst q) m) ms) | OElt ts k => nth_error ts k
      | OArr ty n _ | ORep ty n => Some (CArray ty n) | OSlice ty f t => Some (CArray ty (t - f)) | _ => None
      end
  | SPar k _ _ => match k with KRep ty n | KSlice ty _ n => Some (CArray ty n) | _ => None end
  | SCond _ x _ => sty x
  | SCall _ t _ _ _ => Some t
  end.

(** ** Array values *)
(** typed/mod.rs:1733-1761 expression_at_aux: the elements an element or a spread stands for *)
Definition selects (e : sexp) : option (list sexp) :=
  match sty e with Some (CArray ty n) => Some (map (fun i => SOp (OSel ty) [e; ul W32 (Z.of_nat i)]) (seq 0 n)) | _ => None end.
Fixpoint expand (sp : bool) (e : sexp) {struct e} : option (list sexp) :=
  if sp then
    match e with
    | SOp op es => match op with
        | OArr _ _ sps => (fix go sps es {struct es} := match sps, es with
            | [], [] => Some []
            | s :: sps, e :: es => match expand s e, go sps es with Some a, Some b => Some (a ++ b) | _, _ => None end
            | _, _ => None
            end) sps es
        | _ => selects e
        end
    | _ => selects e
    end
  else Some [e].
Fixpoint expands (sps : list bool) (es : list sexp) : option (list sexp) :=
  match sps, es with
  | [], [] => Some []
  | s :: sps, e :: es => match expand s e, expands sps es with Some a, Some b => Some (a ++ b) | _, _ => None end
  | _, _ => None
  end.
(** l.1196-1225: simplify ...[a, b] to a, b, then ignore spreads over empty arrays *)
Definition splice1 (s : bool) (e : sexp) : list (bool * sexp) :=
  match s, e with true, SOp (OArr _ _ sps) es => combine sps es | _, _ => [(s, e)] end.
Definition keep (q : bool * sexp) : bool := match q with (true, e) => match sty e with Some (CArray _ n) => negb (n =? 0)%nat | _ => true end | _ => true end.
Definition splice (sps : list bool) (es : list sexp) : list (bool * sexp) := filter keep (flat_map (fun q => splice1 (fst q) (snd q)) (combine sps es)).

(** ** The rules of the operators, on arguments already simplified *)
Definition swap (a b : sexp) : list sexp := match unum a with Some _ => [b; a] | None => [a; b] end.
Definition usimp (w : uwidth) (o : uop) (a b : sexp) : option sexp :=
  let dflt := Some (SOp (OUBin w o) [a; b]) in
  match o with
  | UOr => dflt                                                              (* no rule: l.869 *)
  | _ => match unum a, unum b with
    | Some m, Some n => option_map (ul w) (sem_uop o (uwn w) m n)              (* Div and Rem by zero panic *)
    | None, None => match o with UXor => if sexp_eqb a b then Some (ul w 0) else dflt | _ => dflt end
    | Some n, None => match o with
      | UAdd => if n =? 0 then Some b else Some (SOp (OUBin w o) [b; a])        (* l.659-672 *)
      | UMul => if n =? 0 then Some (ul w 0) else if n =? 1 then Some b else Some (SOp (OUBin w o) [b; a])
      | UXor => if n =? 0 then Some b else dflt                                 (* l.820-834: different expressions otherwise *)
      | UAnd => if n =? 0 then Some (ul w 0) else dflt
      | _ => dflt
      end
    | None, Some n => match o with
      | UAdd | USub | UXor => if n =? 0 then Some a else dflt
      | UMul => if n =? 0 then Some (ul w 0) else if n =? 1 then Some a else dflt
      | UDiv => if n =? 1 then Some a else dflt
      | URem => if n =? 1 then Some (ul w 0) else dflt
      | UAnd => if n =? 0 then Some (ul w 0) else dflt
      | UOr => dflt
      end
    end
  end.
Definition psimp (op : top) (args : list sexp) : option sexp :=
  let dflt := Some (SOp op args) in
  match op, args with
  | OFBin FDiv, [a; b] =>                                                    (* l.930-945 *)
      match fnum b with
      | Some n => if Feqb n f0 then None else if Feqb n f1 then Some a else match fnum a with Some m => Some (fl (fdiv m n)) | None => dflt end
      | None => dflt
      end
  | OFBin o, [a; b] => match fnum a, fnum b with Some m, Some n => option_map fl (sem_fop o m n) | _, _ => dflt end      (* l.895-929 *)
  | OFNeg, [a] => match fnum a with Some m => Some (fl (fsub f0 m)) | None => dflt end
  | OPos, [a] => match fnum a, unum a with None, None => dflt | _, _ => Some a end
  | OCmp o, [a; b] =>                                                        (* l.1400-1445 *)
      match o with
      | TFLt => match fnum a, fnum b with Some m, Some n => Some (bl (fval m <? fval n)) | _, _ => dflt end
      | TFLe => match fnum a, fnum b with Some m, Some n => Some (bl (fval m <=? fval n)) | _, _ => dflt end
      | TULt => match unum a, unum b with Some m, Some n => Some (bl (m <? n)) | _, _ => dflt end
      | TULe => match unum a, unum b with Some m, Some n => Some (bl (m <=? n)) | _, _ => dflt end
      end
  | OEq, [a; b] =>                                                           (* l.1318-1366 *)
      if sexp_eqb a b then Some (bl true)
      else if isc a && isc b then match cval a, cval b with Some v, Some w => Some (bl (value_eqb v w)) | _, _ => None end
      else dflt
  | OBBin BOr, [a; b] =>                                                     (* l.1447-1472 *)
      match bnum a, bnum b with
      | Some x, Some y => Some (bl (x || y))
      | _, Some true | Some true, _ => Some (bl true)
      | None, Some false => Some a
      | Some false, None => Some b
      | None, None => dflt
      end
  | OBBin BAnd, [a; b] =>                                                    (* l.1473-1498 *)
      match bnum a, bnum b with
      | Some x, Some y => Some (bl (x && y))
      | None, Some true => Some a
      | Some true, None => Some b
      | _, Some false | Some false, _ => Some (bl false)
      | None, None => dflt
      end
  | ONot, [a] => match bnum a with Some x => Some (bl (negb x)) | None => dflt end
  | OUBin w o, [a; b] => usimp w o a b                                       (* l.650-850 *)
  | OUNot w, [a] => match unum a with Some n => Some (ul w (2 ^ bits_of w - 1 - n)) | None => dflt end
  | OUNeg w, [a] => match unum a with Some n => Some (ul w ((- n) mod 2 ^ bits_of w)) | None => dflt end
  | OSel _, [a; i] =>                                                        (* l.1088-1160 *)
      match a, unum i with
      | SOp (OArr _ n sps) es, Some k => if k <? Z.of_nat n then match expands sps es with Some l => nth_error l (Z.to_nat k) | None => None end else None
      | _, _ => dflt
      end
  | OMem _ m, [SOp (OStr ks) es] => option_map snd (find (fun q => String.eqb (fst q) m) (combine ks es))   (* l.1040-1065 *)
  | OElt _ k, [SOp OTup es] => nth_error es k                                (* l.1067-1086 *)
  | OArr ty n sps, es => let q := splice sps es in Some (SOp (OArr ty n (map fst q)) (map snd q))
  | _, _ => dflt
  end.
(** l.946-962 (power), l.775-818 (shifts: a shift by 128 or more overflows); slices and repetitions are left as they are *)
Definition ppar (k : pkind) (e : sexp) (cs : list sexp) : option sexp :=
  let dflt := Some (SPar k e cs) in
  match k, cs with
  | KPow, [c] => match unum c with
      | Some n => if n =? 0 then Some (fl f1) else match fnum e with Some m => Some (fl (of_Z (fval m ^ n))) | None => dflt end
      | None => dflt
      end
  | KShl w, [c] => match unum e, unum c with Some m, Some n => if n <? 128 then Some (ul w ((m * 2 ^ n) mod 2 ^ bits_of w)) else None | _, _ => dflt end
  | KShr w, [c] => match unum e, unum c with Some m, Some n => if n <? 128 then Some (ul w (m / 2 ^ n)) else None | _, _ => dflt end
  | _, _ => dflt
  end.
Definition consts := rid -> option (cty * value_).
Definition kput (C : consts) (x : rid) (q : option (cty * value_)) : consts := fun y => if rid_eqb y x then q else C y.
Fixpoint pexp (C : consts) (e : sexp) : option sexp :=
  match e with
  | SId t x => match C x with Some (u, v) => Some (lit u v) | None => Some e end                 (* l.1268-1280 *)
  | SOp op args => match opt_list (map (pexp C) args) with Some l => psimp op l | None => None end
  | SPar k e cs => match pexp C e, opt_list (map (pexp C) cs) with Some e', Some l => ppar k e' l | _, _ => None end
  | SCond c x y =>                                                                               (* l.168-194: only the branch taken is visited *)
      match pexp C c with
      | Some c' => match bnum c' with
          | Some true => pexp C x
          | Some false => pexp C y
          | None => match pexp C x, pexp C y with Some x', Some y' => Some (if sexp_eqb x' y' then x' else SCond c' x' y') | _, _ => None end
          end
      | None => None
      end
  | SCall ts t f gens args => match opt_list (map (pexp C) gens), opt_list (map (pexp C) args) with Some g, Some a => Some (SCall ts t f g a) | _, _ => None end
  end.
Definition pexps (C : consts) (l : list sexp) : option (list sexp) := opt_list (map (pexp C) l).

(** ** Built-in functions on constants: l.336-545. [Some None]: not evaluated. *)
(** l.381-395 process_u_to_bits, and l.491-503 in the field *)
Fixpoint greedy (n : nat) (z : Z) : list bool * Z :=
  match n with
  | O => ([], z)
  | S k => let b := 2 ^ Z.of_nat k <=? z in let '(l, r) := greedy k (if b then z - 2 ^ Z.of_nat k else z) in (b :: l, r)
  end.
Fixpoint greedy_f (n : nat) (x : F) : list bool * F :=
  match n with
  | O => ([], x)
  | S k => let b := fval (of_Z (2 ^ Z.of_nat k)) <=? fval x in let '(l, r) := greedy_f k (if b then fsub x (of_Z (2 ^ Z.of_nat k)) else x) in (b :: l, r)
  end.
(** l.337-370 process_u_from_bits *)
Fixpoint from_bits (l : list bool) : Z := match l with [] => 0 | b :: r => (if b then 2 ^ Z.of_nat (length r) else 0) + from_bits r end.
Definition uw_of (n : nat) : option uwidth := match n with 8 => Some W8 | 16 => Some W16 | 32 => Some W32 | 64 => Some W64 | _ => None end%nat.
Definition pemb (em : embed) (vs : list value_) : option (option value_) :=
  match em, vs with
  | EFieldToBool, [VField x] => if Feqb x f0 then Some (Some (VBool false)) else if Feqb x f1 then Some (Some (VBool true)) else None
  | EFromBits n, [VArray l] => match bools l, uw_of n with Some bs, Some w => if (length bs =? n)%nat then Some (Some (VUint w (from_bits bs))) else None | _, _ => None end
  | EToBits n, [VUint _ z] => let '(l, r) := greedy n z in if r =? 0 then Some (Some (VArray (map VBool l))) else None
  | EUnpack n, [VField x] => let '(l, r) := greedy_f n x in if Feqb r f0 then Some (Some (VArray (map VBool l))) else None
  | _, _ => Some None                                                                            (* BitArrayLe: l.399 *)
  end.

(** ** Statements *)
Fixpoint ppath (C : consts) (p : list sacc) : option (list sacc) :=
  match p with
  | [] => Some []
  | SASel i :: r => match pexp C i, ppath C r with Some i', Some r' => Some (SASel i' :: r') | _, _ => None end
  | a :: r => option_map (cons a) (ppath C r)
  end.
(** the steps of a path whose indices are literals *)
Fixpoint lsteps (p : list sacc) : option (list step) :=
  match p with
  | [] => Some []
  | SASel i :: r => match unum i, lsteps r with Some k, Some l => Some (PIdx k :: l) | _, _ => None end
  | SAMem m :: r => option_map (cons (PMem m)) (lsteps r)
  | SAElt k :: r => option_map (cons (PElt k)) (lsteps r)
  end.
(** invalidate the cache for a variable, and define its latest value in the program, if any: l.315-318, l.322-336 *)
Definition invalidate (C : consts) (x : rid) (s : sstmt) : consts * list sstmt :=
  match C x with Some (t, v) => (kput C x None, [SDef x t (lit t v); s]) | None => (C, [s]) end.
Definition pstmt (C : consts) (s : sstmt) : option (consts * list sstmt) :=
  match s with
  | SDef x t e =>                                                                                (* l.281-340 fold_definition_statement *)
      match pexp C e with
      | Some e' => if isc e' then match cval e', C x with Some v, None => Some (kput C x (Some (t, v)), []) | _, _ => None end
                   else Some (invalidate C x (SDef x t e'))
      | None => None
      end
  | SSet x t p e =>
      match ppath C p, pexp C e with
      | Some p', Some e' =>
          if isc e' then
            match cval e' with
            | Some v => match C x, lsteps p' with
                | Some (u, c), Some ps => match put ps v c with Some c' => Some (kput C x (Some (u, c')), []) | None => Some (invalidate C x (SSet x t p' e')) end
                | _, _ => Some (invalidate C x (SSet x t p' e'))
                end
            | None => None
            end
          else Some (invalidate C x (SSet x t p' e'))
      | _, _ => None
      end
  | SAssert e err =>                                                                             (* l.634-647 *)
      match pexp C e with
      | Some e' => match bnum e' with Some true => Some (C, []) | Some false => None | None => Some (C, [SAssert e' err]) end
      | None => None
      end
  | SLog fmt args => option_map (fun l => (C, [SLog fmt l])) (pexps C args)
  | SEmb x t em args =>                                                                          (* l.341-608 *)
      match pexps C args with
      | Some l => if forallb isc l then
            match opt_list (map cval l) with
            | Some vs => match pemb em vs with
                | Some (Some v) => Some (kput C x (Some (t, v)), [])
                | Some None => Some (invalidate C x (SEmb x t em l))
                | None => None
                end
            | None => None
            end
          else Some (invalidate C x (SEmb x t em l))
      | None => None
      end
  | SFor x a b body => match pexp C a, pexp C b with Some a', Some b' => Some (C, [SFor x a' b' body]) | _, _ => None end      (* l.619-632 *)
  end.
Fixpoint pstmts (C : consts) (ss : list sstmt) : option (consts * list sstmt) :=
  match ss with
  | [] => Some (C, [])
  | s :: r => match pstmt C s with Some (C1, l) => match pstmts C1 r with Some (C2, l') => Some (C2, l ++ l') | None => None end | None => None end
  end.
(** l.66-68 propagate *)
Definition propagate_typed (p : sprog) : option sprog :=
  match pstmts (fun _ => None) (sbody p) with
  | Some (C, l) => option_map (fun e => mkSProg (sargs p) l e (sretty p)) (pexp C (sret p))
  | None => None
  end.
End TProp.
