(** Assignments to a part of a variable: a[i] = e, s.m = e, t.0 = e and nested ones.
    Models: zokrates_analysis/src/variable_write_remover.rs, condition_redefiner.rs, and the assignees of flatten_complex_types.rs.
    The reducer (zokrates_analysis/src/reducer/shallow_ssa.rs:95-170) does not introduce a new version of the variable for such an assignment,
    so the programs of this file assign a variable several times. *)
From Coq Require Import String Ascii.
From Coq Require Import ZArith NArith List Bool Lia.
From Verif Require Import PField Interp Bits Zir UintOpt Abi Typed Flatten.
Import ListNotations.
Open Scope Z_scope.

Section Writes.
Context {PF : PrimeField}.

(** typed/mod.rs TypedAssignee, as a variable and a list of accesses (variable_write_remover.rs:543-561 linear) *)
Inductive access := ASel (i : texp) | AMem (m : string) | AElt (k : nat).
(** a statement of a function body: a statement without partial assignment, or the assignment of [e] to the part of the
    variable x of type t reached by [path] *)
Inductive wstmt := WS (s : tstmt) | WSet (x : Z) (t : cty) (path : list access) (e : texp).
Record wprog := mkWProg { wargs : list (Z * cty * bool); wbody : list wstmt; wret : texp; wretty : cty }.

(** ** Specification: the meaning of an assignment *)
(** the accesses with the values of their indices *)
Inductive step := PIdx (k : Z) | PMem (m : string) | PElt (k : nat).
Fixpoint put_nth {A} (k : nat) (f : A -> option A) (l : list A) : option (list A) :=
  match l, k with
  | [], _ => None
  | x :: r, O => option_map (fun y => y :: r) (f x)
  | x :: r, S k => option_map (cons x) (put_nth k f r)
  end.
Fixpoint put_mem (m : string) (f : value_ -> option value_) (l : list (string * value_)) : option (list (string * value_)) :=
  match l with
  | [] => None
  | (k, x) :: r => if String.eqb k m then option_map (fun y => (k, y) :: r) (f x) else option_map (cons (k, x)) (put_mem m f r)
  end.
(** [v] with the part reached by the steps replaced by [new] *)
Fixpoint put (p : list step) (new v : value_) : option value_ :=
  match p with
  | [] => Some new
  | PIdx k :: r => match v with VArray l => if 0 <=? k then option_map VArray (put_nth (Z.to_nat k) (put r new) l) else None | _ => None end
  | PMem m :: r => match v with VStruct l => option_map VStruct (put_mem m (put r new) l) | _ => None end
  | PElt k :: r => match v with VTuple l => option_map VTuple (put_nth k (put r new) l) | _ => None end
  end.
Fixpoint steps (rho : tenv) (p : list access) : outcome (list entry * list step) :=
  match p with
  | [] => Ok ([], [])
  | ASel i :: r => obnd (teval rho i) (fun a => obnd (steps rho r) (fun b => match snd a with VUint _ k => Ok (fst a ++ fst b, PIdx k :: snd b) | _ => Stuck end))
  | AMem m :: r => obnd (steps rho r) (fun b => Ok (fst b, PMem m :: snd b))
  | AElt k :: r => obnd (steps rho r) (fun b => Ok (fst b, PElt k :: snd b))
  end.
(** an index out of bounds makes the program fail *)
Definition of_put (o : option value_) : outcome value_ := match o with Some v => Ok v | None => Failed end.
Definition wexec (rho : tenv) (s : wstmt) : outcome (list entry * tenv) :=
  match s with
  | WS s => texec rho s
  | WSet x _ p e =>
      obnd (steps rho p) (fun ps => obnd (teval rho e) (fun a => obnd (of_opt (rho x)) (fun v =>
        obnd (of_put (put (snd ps) (snd a) v)) (fun v' => Ok (fst ps ++ fst a, tupd rho x v')))))
  end.
Fixpoint wexecs (rho : tenv) (l : list wstmt) : outcome (list entry * tenv) :=
  match l with
  | [] => Ok ([], rho)
  | s :: r => obnd (wexec rho s) (fun a => obnd (wexecs (snd a) r) (fun b => Ok (fst a ++ fst b, snd b)))
  end.
Definition wrun (p : wprog) (vs : list value_) : outcome (value_ * list entry) :=
  obnd (wexecs (tbind (fun _ => None) (wargs p) vs) (wbody p)) (fun a => obnd (teval (snd a) (wret p)) (fun b => Ok (snd b, fst a ++ fst b))).

(** ** Typing *)
Inductive path_ty (S : tctx) : cty -> list access -> cty -> Prop :=
| PTnil : forall t, path_ty S t [] t
| PTsel : forall ty n i r t, Z.of_nat n < 2 ^ 32 -> tty S i (CUint W32) -> path_ty S ty r t -> path_ty S (CArray ty n) (ASel i :: r) t
| PTmem : forall ms m tm r t a b, ms = a ++ (m, tm) :: b -> ~ In m (map fst a) -> path_ty S tm r t -> path_ty S (CStruct ms) (AMem m :: r) t
| PTelt : forall ts k tk r t, nth_error ts k = Some tk -> path_ty S tk r t -> path_ty S (CTuple ts) (AElt k :: r) t.
Inductive wsty : tctx -> wstmt -> tctx -> Prop :=
| WTS : forall S s S1, tsty S s S1 -> wsty S (WS s) S1
| WTSet : forall S x t p e te, S x = Some t -> good_ty t -> path_ty S t p te -> tty S e te -> wsty S (WSet x t p e) S.
Inductive wstys : tctx -> list wstmt -> tctx -> Prop :=
| WTnil : forall S, wstys S [] S
| WTcons : forall S S1 S2 s r, wsty S s S1 -> wstys S1 r S2 -> wstys S (s :: r) S2.
Fixpoint pdefs (p : list access) : list Z := match p with [] => [] | ASel i :: r => tdefs i ++ pdefs r | _ :: r => pdefs r end.
(** the new variables of a statement: a partial assignment has none of its own *)
Definition wdefs (s : wstmt) : list Z := match s with WS s => sdefs s | WSet _ _ p e => pdefs p ++ tdefs e end.
Definition wdefss (l : list wstmt) : list Z := flat_map wdefs l.
Definition wwell_typed (p : wprog) : Prop :=
  Forall (fun q => good_ty (snd (fst q))) (wargs p) /\
  (exists S, wstys (tparams (wargs p)) (wbody p) S /\ tty S (wret p) (wretty p)) /\
  NoDup (map (fun q => fst (fst q)) (wargs p) ++ wdefss (wbody p) ++ tdefs (wret p)).

(** ** variable_write_remover.rs *)
Definition ulit32 (k : nat) : texp := TOp (OUVal W32 (Z.of_nat k)) [].
Definition is_ulit (i : texp) : bool := match i with TOp (OUVal _ _) [] => true | _ => false end.
(** l.565-577 is_constant *)
Fixpoint const_path (p : list access) : bool := match p with [] => true | ASel i :: r => is_ulit i && const_path r | _ :: r => const_path r end.
(** l.36-540 choose_many: the new value of the whole variable. The checks are collected by [range_checks]. *)
Fixpoint choose_many (base : texp) (t : cty) (p : list access) (new : texp) : texp :=
  match p with
  | [] => new
  | ASel i :: r =>
      match t with
      | CArray ty n => TOp (OArr ty n (repeat false n)) (map (fun k =>
          let el := TOp (OSel ty) [base; ulit32 k] in TCond (TOp OEq [ulit32 k; i]) (choose_many el ty r new) el) (seq 0 n))
      | _ => base
      end
  | AMem m :: r =>
      match t with
      | CStruct ms => TOp (OStr (map fst ms)) (map (fun q => let el := TOp (OMem ms (fst q)) [base] in if String.eqb (fst q) m then choose_many el (snd q) r new else el) ms)
      | _ => base
      end
  | AElt k :: r =>
      match t with
      | CTuple ts => TOp OTup (map (fun q => let el := TOp (OElt ts (fst q)) [base] in if (fst q =? k)%nat then choose_many el (snd q) r new else el) (combine (seq 0 (length ts)) ts))
      | _ => base
      end
  end.
(** l.60-68: an assertion i < size for each index, kept in a HashSet (so in an unspecified order, once each): here in the order of the path.
    No check is collected below an empty array. *)
Definition eSelRange : Z := 21.
Fixpoint range_checks (t : cty) (p : list access) : list tstmt :=
  match p, t with
  | ASel i :: r, CArray ty n => TAssert (TOp (OCmp TULt) [i; ulit32 n]) eSelRange :: (if (n =? 0)%nat then [] else range_checks ty r)
  | AMem m :: r, CStruct ms => match find (fun q => String.eqb (fst q) m) ms with Some q => range_checks (snd q) r | None => [] end
  | AElt k :: r, CTuple ts => match nth_error ts k with Some t => range_checks t r | None => [] end
  | _, _ => []
  end.
(** l.602-672 fold_definition_statement *)
Definition remove_write (s : wstmt) : list wstmt :=
  match s with
  | WS _ => [s]
  | WSet x t p e => if const_path p then [s] else map WS (range_checks t p) ++ [WSet x t [] (choose_many (TId t x) t p e)]
  end.
Definition remove_writes (p : wprog) : wprog := mkWProg (wargs p) (flat_map remove_write (wbody p)) (wret p) (wretty p).

(** ** The assignments that are translated faithfully *)
(** the identifiers read *)
Fixpoint tids (e : texp) : list Z :=
  match e with
  | TId _ x => [x]
  | TOp _ args => tdefs_list tids args
  | TCond c x y => tids c ++ tids x ++ tids y
  | TBlock ss e => tdefs_stmts sids ss ++ tids e
  end
with sids (s : tstmt) : list Z :=
  match s with
  | TDef _ _ e | TAssert e _ => tids e
  | TEmb _ _ _ args | TLog _ args => tdefs_list tids args
  end.
Definition tidss := tdefs_list tids.
Definition sidss := tdefs_stmts sids.
Definition reads (x : Z) (e : texp) : bool := existsb (Z.eqb x) (tids e).
(** no block, so no statement, in the expression *)
Fixpoint plain (e : texp) : bool :=
  match e with TId _ _ => true | TOp _ args => forallb plain args | TCond c x y => plain c && plain x && plain y | TBlock _ _ => false end.
Definition partial_op (op : top) : bool := match op with OFBin FDiv | OUBin _ UDiv | OUBin _ URem | OCmp TFLt | OCmp TFLe => true | _ => false end.
(** outside the conditions of its conditionals, the operations of e that can be undefined do not depend on x *)
Fixpoint steady (x : Z) (e : texp) : bool :=
  match e with
  | TId _ _ => true
  | TOp op args => forallb (steady x) args && match op, args with OSel _, [_; i] => negb (reads x i) | _, _ => if partial_op op then forallb (fun a => negb (reads x a)) args else true end
  | TCond _ a b => steady x a && steady x b
  | TBlock _ _ => false
  end.
Definition scalar (t : cty) : bool := match t with CField | CBool | CUint _ => true | _ => false end.
Definition plain_path (p : list access) : bool := forallb (fun a => match a with ASel i => plain i | _ => true end) p.
(** the type of the part reached *)
Fixpoint part_ty (t : cty) (p : list access) : option cty :=
  match p, t with
  | [], _ => Some t
  | ASel _ :: r, CArray ty _ => part_ty ty r
  | AMem m :: r, CStruct ms => match find (fun q => String.eqb (fst q) m) ms with Some q => part_ty (snd q) r | None => None end
  | AElt k :: r, CTuple ts => match nth_error ts k with Some t => part_ty t r | None => None end
  | _, _ => None
  end.
(** the part assigned is a single field element, boolean or integer, or the new value does not depend on the variable *)
Definition apart (x : Z) (t : cty) (p : list access) (e : texp) : bool := negb (reads x e) || match part_ty t p with Some te => scalar te | None => false end.
(** with an index that is not a literal the new value is computed again after each component is assigned: its operations must stay defined *)
Definition safe_write (s : wstmt) : bool :=
  match s with
  | WS _ => true
  | WSet x t p e => apart x t p e && (const_path p || (plain e && plain_path p && steady x e))
  end.

(** ** condition_redefiner.rs. Condition variables are numbered downwards from -1; the identifiers of the program are not negative. *)
Definition cid (n : nat) : Z := - 1 - Z.of_nat n.
(** the new index, the definitions pushed to the buffer, the expression *)
Definition redef_list {A} (f : nat -> A -> nat * list tstmt * A) : nat -> list A -> nat * list tstmt * list A :=
  fix go n l := match l with
  | [] => (n, [], [])
  | e :: r => let '(n1, b1, e') := f n e in let '(n2, b2, r') := go n1 r in (n2, b1 ++ b2, e' :: r')
  end.
Definition redef_stmts_of (f : nat -> tstmt -> nat * list tstmt) : nat -> list tstmt -> nat * list tstmt :=
  fix go n l := match l with [] => (n, []) | s :: r => let '(n1, a) := f n s in let '(n2, b) := go n1 r in (n2, a ++ b) end.
Definition simple_cond (c : texp) : bool := match c with TOp (OBVal _) [] => true | TId _ _ => true | _ => false end.
Fixpoint redef (n : nat) (e : texp) : nat * list tstmt * texp :=
  match e with
  | TId _ _ => (n, [], e)
  | TOp op args => let '(n1, b, args') := redef_list redef n args in (n1, b, TOp op args')
  (* l.54-91 fold_conditional_expression *)
  | TCond c x y =>
      let '(n1, b1, c') := redef n c in
      let '(n2, bc, c2) := if simple_cond c' then (n1, [], c') else (S n1, [TDef (cid n1) CBool c'], TId CBool (cid n1)) in
      let '(n3, b2, x') := redef n2 x in let '(n4, b3, y') := redef n3 y in
      (n4, b1 ++ bc ++ b2 ++ b3, TCond c2 x' y')
  (* l.32-52 fold_block_expression *)
  | TBlock ss e => let '(n1, ss') := redef_stmts_of redef_stmt n ss in let '(n2, b, e') := redef n1 e in (n2, [], TBlock (ss' ++ b) e')
  end
(* l.24-30 fold_statement_cases *)
with redef_stmt (n : nat) (s : tstmt) : nat * list tstmt :=
  match s with
  | TDef x t e => let '(n1, b, e') := redef n e in (n1, b ++ [TDef x t e'])
  | TAssert e err => let '(n1, b, e') := redef n e in (n1, b ++ [TAssert e' err])
  | TEmb x t em args => let '(n1, b, args') := redef_list redef n args in (n1, b ++ [TEmb x t em args'])
  | TLog f args => let '(n1, b, args') := redef_list redef n args in (n1, b ++ [TLog f args'])
  end.
Definition redefs := redef_list redef.
Definition redef_stmts := redef_stmts_of redef_stmt.
Fixpoint redef_path (n : nat) (p : list access) : nat * list tstmt * list access :=
  match p with
  | [] => (n, [], [])
  | ASel i :: r => let '(n1, b1, i') := redef n i in let '(n2, b2, r') := redef_path n1 r in (n2, b1 ++ b2, ASel i' :: r')
  | a :: r => let '(n2, b2, r') := redef_path n r in (n2, b2, a :: r')
  end.
(** typed/folder.rs fold_definition_statement: the right-hand side, then the assignee *)
Definition redef_w (n : nat) (s : wstmt) : nat * list wstmt :=
  match s with
  | WS s => let '(n1, l) := redef_stmt n s in (n1, map WS l)
  | WSet x t p e => let '(n1, b1, e') := redef n e in let '(n2, b2, p') := redef_path n1 p in (n2, map WS (b1 ++ b2) ++ [WSet x t p' e'])
  end.
Fixpoint redef_ws (n : nat) (l : list wstmt) : nat * list wstmt :=
  match l with [] => (n, []) | s :: r => let '(n1, a) := redef_w n s in let '(n2, b) := redef_ws n1 r in (n2, a ++ b) end.
(** the return statement is a statement: its conditions are defined just before it *)
Definition redef_prog (p : wprog) : wprog :=
  let '(n1, ss) := redef_ws 0 (wbody p) in let '(n2, b, e) := redef n1 (wret p) in
  mkWProg (wargs p) (ss ++ map WS b) e (wretty p).

(** ** flatten_complex_types.rs, assignees (l.225-292) and definitions (l.633-645) *)
Definition islice {A} (l : list A) (i j : nat) : option (list A) := if (i <=? j)%nat && (j <=? length l)%nat then Some (firstn (j - i) (skipn i l)) else None.
Fixpoint assignees (t : cty) (p : list access) (ids : list (sid * lty)) : option (list (sid * lty)) :=
  match p with
  | [] => Some ids
  | ASel i :: r => match t, i with
      | CArray ty _, TOp (OUVal _ k) [] => let c := prim_count ty in
          match islice ids (Z.to_nat k * c) ((Z.to_nat k + 1) * c) with Some l => assignees ty r l | None => None end
      | _, _ => None
      end
  | AMem m :: r => match t with
      | CStruct ms => match moffset m ms, find (fun q => String.eqb (fst q) m) ms with
                      | Some (o, n), Some q => match islice ids o (o + n) with Some l => assignees (snd q) r l | None => None end
                      | _, _ => None
                      end
      | _ => None
      end
  | AElt k :: r => match t with
      | CTuple ts => match nth_error ts k with
                     | Some tk => let o := sum_count (firstn k ts) in match islice ids o (o + prim_count tk) with Some l => assignees tk r l | None => None end
                     | None => None
                     end
      | _ => None
      end
  end.
Definition wflat_stmt (s : wstmt) : option (list zstmt) :=
  match s with
  | WS s => tflat_stmt s
  | WSet x t p e =>
      match assignees t p (flat_ids (SBase x) t), tflat e with
      | Some ids, Some (ss, zs) => if (length ids =? length zs)%nat then Some (ss ++ defs_zip ids zs) else None
      | _, _ => None
      end
  end.
Fixpoint wflat_stmts (l : list wstmt) : option (list zstmt) :=
  match l with [] => Some [] | s :: r => match wflat_stmt s, wflat_stmts r with Some a, Some b => Some (a ++ b) | _, _ => None end end.
Definition wflatten (p : wprog) : option zprog :=
  match wflat_stmts (wbody p), tflat (wret p) with
  | Some ss, Some (sr, zs) => Some (mkZProg (flat_map flat_param (wargs p)) (ss ++ sr ++ [ZReturn zs]) (prim_count (wretty p)))
  | _, _ => None
  end.
(** lib.rs:184-209: the three passes in order (the checks between them reject programs and change nothing) *)
Definition wcompile (p : wprog) : option zprog := wflatten (redef_prog (remove_writes p)).
End Writes.
