(** Reduction: calls are inlined, loops unrolled and variables renamed so that each assignment of a whole variable defines a new version.
    Models: zokrates_analysis/src/reducer/mod.rs (Reducer), shallow_ssa.rs (ShallowTransformer), inline.rs (inline_call).
    The result [None] is an error or a panic of the compiler; the first argument bounds the depth of the recursion (the code does not terminate
    on a recursive function).
    Simplifications: the generic parameters of a call are all given and their values and the signature select the function (see Src.v), so the
    inference of generics (inline.rs:97-127) is not modelled; no block expressions; the constants of the program have been inlined before. *)
From Coq Require Import String Ascii.
From Coq Require Import ZArith NArith List Bool Lia.
From Verif Require Import PField Interp Bits Zir UintOpt Abi Typed Writes Src SrcTy TProp TPropOk.
Import ListNotations.
Open Scope Z_scope.

Section Reduce.
Context {PF : PrimeField}.
Variable funs : ftable.

(** shallow_ssa.rs:34-36 Versions, for one frame: the latest version of each variable *)
Definition versions := core -> option nat.
Definition ver (V : versions) (c : core) : nat := match V c with Some k => k | None => O end.
(** shallow_ssa.rs:154-165 fold_name: the frame is replaced as well *)
Definition now (fr : nat) (V : versions) (y : rid) : rid := (fr, snd (fst y), ver V (snd (fst y))).
(** shallow_ssa.rs:59-70 issue_next_identifier *)
Definition bump (V : versions) (c : core) : versions := fun d => if core_eqb d c then Some (match V c with Some k => S k | None => O end) else V d.
(** an expression and a path with its identifiers replaced *)
Fixpoint ren (f : rid -> rid) (e : sexp) : sexp :=
  match e with
  | SId t x => SId t (f x)
  | SOp op args => SOp op (map (ren f) args)
  | SPar k e cs => SPar k (ren f e) (map (ren f) cs)
  | SCond c x y => SCond (ren f c) (ren f x) (ren f y)
  | SCall ts t g gens args => SCall ts t g (map (ren f) gens) (map (ren f) args)
  end.
Definition ren_acc (f : rid -> rid) (a : sacc) : sacc := match a with SASel i => SASel (ren f i) | _ => a end.

(** The state: the number of the latest frame and the constants. A result: the state, the statements to put before, and what is left. *)
Definition rres (A : Type) : Type := option (nat * consts * list sstmt * A).
Definition rfold := nat -> consts -> sexp -> rres sexp.
Fixpoint rall (f : rfold) (L : nat) (C : consts) (es : list sexp) : rres (list sexp) :=
  match es with
  | [] => Some (L, C, [], [])
  | e :: r => match f L C e with
      | Some (L1, C1, b1, e') => match rall f L1 C1 r with Some (L2, C2, b2, r') => Some (L2, C2, b1 ++ b2, e' :: r') | None => None end
      | None => None
      end
  end.
(** propagate, reduce, propagate again: reducer/mod.rs:139-143, l.160-165 *)
Definition rsand (f : rfold) : rfold := fun L C e =>
  match pexp C e with
  | Some e1 => match f L C e1 with
      | Some (L1, C1, b, e2) => match pexp C1 e2 with Some e3 => Some (L1, C1, b, e3) | None => None end
      | None => None
      end
  | None => None
  end.
(** l.354-370: in addition, rename first *)
Definition rslice (fr : nat) (V : versions) (f : rfold) : rfold := fun L C e => rsand f L C (ren (now fr V) e).
Definition is_num (e : sexp) : bool := match unum e with Some _ => true | None => false end.
(** propagation.rs:63-66 clear_call_frame *)
Definition clear (L : nat) (C : consts) : consts := fun y => if (rframe y =? L)%nat then None else C y.
(** the statements which bind the arguments of a call: l.179-196; the names of the parameters of a function are different *)
Definition bindings (fr : nat) (ps : list (nat * cty)) (args : list sexp) : list sstmt := map (fun q => SDef (fr, Name (fst (fst q)), O) (snd (fst q)) (snd q)) (combine ps args).
Definition param_versions (ps : list (nat * cty)) : versions := fun c => match c with Name x => if existsb (Nat.eqb x) (map fst ps) then Some O else None | CallId => None end.
(** inline.rs:151-160 generic_bindings *)
Definition gen_defs (gs : list nat) (ns : list Z) : list sstmt := map (fun q => SDef (src (fst q)) U32 (ul W32 (snd q))) (combine gs ns).
Definition rpath (f : rfold) : nat -> consts -> list sacc -> rres (list sacc) :=
  fix go L C p := match p with
  | [] => Some (L, C, [], [])
  | SASel i :: r => match f L C i with
      | Some (L1, C1, b1, i') => match go L1 C1 r with Some (L2, C2, b2, r') => Some (L2, C2, b1 ++ b2, SASel i' :: r') | None => None end
      | None => None
      end
  | a :: r => match go L C r with Some (L2, C2, b2, r') => Some (L2, C2, b2, a :: r') | None => None end
  end.
(** result_folder.rs:827-876: the expressions of a statement are reduced, the right-hand side before the indices. Embed calls and loops do not
    reach this point. *)
Definition rone (f : rfold) (L : nat) (C : consts) (s : sstmt) : rres sstmt :=
  match s with
  | SDef x t e => match f L C e with Some (L1, C1, b, e') => Some (L1, C1, b, SDef x t e') | None => None end
  | SSet x t p e => match f L C e with
      | Some (L1, C1, b, e') => match rpath f L1 C1 p with Some (L2, C2, b2, p') => Some (L2, C2, b ++ b2, SSet x t p' e') | None => None end
      | None => None
      end
  | SAssert e err => match f L C e with Some (L1, C1, b, e') => Some (L1, C1, b, SAssert e' err) | None => None end
  | SLog fmt args => match rall f L C args with Some (L1, C1, b, l) => Some (L1, C1, b, SLog fmt l) | None => None end
  | SEmb _ _ _ _ | SFor _ _ _ _ => None
  end.
Fixpoint rones (f : rfold) (L : nat) (C : consts) (ss : list sstmt) : rres (list sstmt) :=
  match ss with
  | [] => Some (L, C, [], [])
  | s :: r => match rone f L C s with
      | Some (L1, C1, b1, s') => match rones f L1 C1 r with Some (L2, C2, b2, r') => Some (L2, C2, b1 ++ b2, s' :: r') | None => None end
      | None => None
      end
  end.
(** l.326-349: a statement other than a loop, already renamed: propagate, reduce, propagate; the statements of the inlined calls come first *)
Definition rsimple (f : rfold) (L : nat) (C : consts) (s : sstmt) : option (nat * consts * list sstmt) :=
  match pstmt C s with
  | Some (C1, l1) => match rones f L C1 l1 with
      | Some (L2, C2, b, l2) => match pstmts C2 l2 with Some (C3, l3) => Some (L2, C3, b ++ l3) | None => None end
      | None => None
      end
  | None => None
  end.
(** an identifier of a source program; shallow_ssa.rs:73 asserts that the version is zero *)
Definition is_src (x : rid) : bool := (rframe x =? 0)%nat && (snd x =? 0)%nat && match snd (fst x) with Name _ => true | CallId => false end.
Definition rst := option (nat * consts * versions * list sstmt).
Definition rstep := nat -> consts -> versions -> sstmt -> rst.
Fixpoint rstmts_ (f : rstep) (L : nat) (C : consts) (V : versions) (ss : list sstmt) : rst :=
  match ss with
  | [] => Some (L, C, V, [])
  | s :: r => match f L C V s with
      | Some (L1, C1, V1, b1) => match rstmts_ f L1 C1 V1 r with Some (L2, C2, V2, b2) => Some (L2, C2, V2, b1 ++ b2) | None => None end
      | None => None
      end
  end.
(** l.305-319: the body of a loop for each value of its variable *)
Fixpoint riter (f : rstep) (x : rid) (body : list sstmt) (L : nat) (C : consts) (V : versions) (ks : list Z) : rst :=
  match ks with
  | [] => Some (L, C, V, [])
  | k :: r => match rstmts_ f L C V (SDef x U32 (ul W32 k) :: body) with
      | Some (L1, C1, V1, b1) => match riter f x body L1 C1 V1 r with Some (L2, C2, V2, b2) => Some (L2, C2, V2, b1 ++ b2) | None => None end
      | None => None
      end
  end.
(** shallow_ssa.rs:75-170: rename a statement, other than a loop *)
Definition ssa (fr : nat) (V : versions) (s : sstmt) : option (versions * sstmt) :=
  match s with
  | SDef x t e => if is_src x then let V' := bump V (snd (fst x)) in Some (V', SDef (now fr V' x) t (ren (now fr V) e)) else None
  | SSet x t p e => if is_src x then Some (V, SSet (now fr V x) t (map (ren_acc (now fr V)) p) (ren (now fr V) e)) else None
  | SAssert e err => Some (V, SAssert (ren (now fr V) e) err)
  | SLog fmt args => Some (V, SLog fmt (map (ren (now fr V)) args))
  | SEmb _ _ _ _ | SFor _ _ _ _ => None
  end.
Fixpoint rexp (n : nat) (fr : nat) (V : versions) (L : nat) (C : consts) (e : sexp) : rres sexp :=
  match n with
  | O => None
  | S n =>
    match e with
    | SId _ _ => Some (L, C, [], e)
    | SOp op args => match rall (rexp n fr V) L C args with Some (L1, C1, b, l) => Some (L1, C1, b, SOp op l) | None => None end
    | SPar k e cs =>
        let f := if is_slice k then rslice fr V (rexp n fr V) else rexp n fr V in
        match f L C e with
        | Some (L1, C1, b1, e') => match rall f L1 C1 cs with
            | Some (L2, C2, b2, l) => if negb (is_slice k) || forallb is_num l then Some (L2, C2, b1 ++ b2, SPar k e' l) else None
            | None => None
            end
        | None => None
        end
    | SCond c x y =>
        match rall (rexp n fr V) L C [c; x; y] with
        | Some (L1, C1, b, [c'; x'; y']) => Some (L1, C1, b, SCond c' x' y')
        | _ => None
        end
    | SCall ts t f gens args =>                                             (* l.122-253 *)
        match rall (rsand (rexp n fr V)) L C gens with
        | Some (L1, C1, b1, gens') =>
          match opt_list (map unum gens') with
          | Some ns =>
            match rall (rsand (rexp n fr V)) L1 C1 args with
            | Some (L2, C2, b2, args') =>
              let fr' := S L2 in
              match funs f ns ts t with
              | Some (Here gs ps body ret) =>
                if (length ps =? length args')%nat && (length gs =? length ns)%nat then
                match pstmts C2 (bindings fr' ps args') with
                | Some (C3, b3) =>
                  match rstmts_ (rstmt n fr') fr' C3 (param_versions ps) (gen_defs gs ns ++ body) with
                  | Some (L4, C4, V4, b4) =>
                    match rslice fr' V4 (rexp n fr' V4) L4 C4 ret with
                    | Some (L5, C5, b5, r) => Some (L5, clear L5 C5, b1 ++ b2 ++ b3 ++ b4 ++ b5, r)
                    | None => None
                    end
                  | None => None
                  end
                | None => None
                end
                else None
              | Some (Flat em u) =>
                let x := (fr', CallId, O) in
                match pstmts C2 [SEmb x u em args'] with
                | Some (C3, b3) => Some (fr', clear fr' C3, b1 ++ b2 ++ b3, match C3 x with Some (w, v) => lit w v | None => SId u x end)
                | None => None
                end
              | None => None
              end
            | None => None
            end
          | None => None
          end
        | None => None
        end
    end
  end
with rstmt (n : nat) (fr : nat) (L : nat) (C : consts) (V : versions) (s : sstmt) : rst :=
  match n with
  | O => None
  | S n =>
    match s with
    | SFor x a b body =>                                                    (* l.284-325 *)
        match rall (rslice fr V (rexp n fr V)) L C [a; b] with
        | Some (L1, C1, b1, [a'; b']) =>
          match unum a', unum b' with
          | Some i, Some j => if (i <=? j) && (j - i <=? 2 ^ 20) then
              match riter (rstmt n fr) x body L1 C1 V (zrange i j) with Some (L2, C2, V2, b2) => Some (L2, C2, V2, b1 ++ b2) | None => None end
              else None
          | _, _ => None
          end
        | _ => None
        end
    | _ => match ssa fr V s with
        | Some (V', s') => match rsimple (rexp n fr V') L C s' with Some (L', C', l) => Some (L', C', V', l) | None => None end
        | None => None
        end
    end
  end.
(** l.394-438 reduce_program: the main function has no generic parameters *)
Definition reduce (n : nat) (p : sprog) : option sprog :=
  if forallb (fun q => is_src (fst (fst q))) (sargs p) then
  match rstmts_ (rstmt n 0) 0 (fun _ => None) (fun c => if existsb (fun q => core_eqb (snd (fst (fst (fst q)))) c) (sargs p) then Some O else None) (sbody p) with
  | Some (L, C, V, b) => match rslice 0 V (rexp n 0 V) L C (sret p) with
      | Some (_, _, b', e) => Some (mkSProg (sargs p) (b ++ b') e (sretty p))
      | None => None
      end
  | None => None
  end
  else None.
End Reduce.
