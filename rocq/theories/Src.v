(** Programs before reduction: several functions with calls, generic parameters, loops, assignments to variables and to parts of variables.
    Models: zokrates_ast/src/typed/mod.rs (TypedProgram as the semantic checker produces it).
    Simplifications: the types in expressions are concrete; a generic function is given by its instances, one for each list of values of its
    generic parameters (the values of the generic parameters are still variables of the body, inline.rs:151-160); no assembly blocks; the
    branches of a conditional are not isolated (the default), so there is no block expression. *)
From Coq Require Import String Ascii.
From Coq Require Import ZArith NArith List Bool Lia.
From Verif Require Import PField Interp Bits Zir UintOpt Abi Typed Writes.
Import ListNotations.
Open Scope Z_scope.

(** typed/identifier.rs: CoreIdentifier (Source and Call; Constant is inlined before, Condition comes later), FrameIdentifier, Identifier:
    the frame, the core identifier and the version. In a source program frame and version are zero. *)
Inductive core := Name (x : nat) | CallId.
Definition rid := (nat * core * nat)%type.
Definition core_eqb (a b : core) : bool := match a, b with Name x, Name y => Nat.eqb x y | CallId, CallId => true | _, _ => false end.
Definition rid_eqb (a b : rid) : bool := Nat.eqb (fst (fst a)) (fst (fst b)) && core_eqb (snd (fst a)) (snd (fst b)) && Nat.eqb (snd a) (snd b).
Definition rframe (x : rid) : nat := fst (fst x).
Lemma core_eqb_ok : forall a b, core_eqb a b = true <-> a = b.
Proof. intros [x|] [y|]; cbn [core_eqb]; try (split; intros H; discriminate H); [rewrite Nat.eqb_eq; split; [intros ->; reflexivity|intros H; injection H; auto]|split; reflexivity]. Qed.
Lemma rid_eqb_ok : forall a b, rid_eqb a b = true <-> a = b.
Proof. intros [[f c] v] [[g d] w]. unfold rid_eqb. cbn [fst snd]. rewrite !andb_true_iff, !Nat.eqb_eq, core_eqb_ok. split; [intros [[-> ->] ->]; reflexivity|intros H; injection H; auto]. Qed.
Lemma rid_eqb_refl : forall a, rid_eqb a a = true.
Proof. intros a. apply rid_eqb_ok. reflexivity. Qed.
Lemma rid_eqb_ne : forall a b, a <> b -> rid_eqb a b = false.
Proof. intros a b H. destruct (rid_eqb a b) eqn:E; [apply rid_eqb_ok in E; contradiction|reflexivity]. Qed.

Section Src.
Context {PF : PrimeField}.

(** the operators some of whose arguments must become constants *)
Inductive pkind := KPow | KShl (w : uwidth) | KShr (w : uwidth) | KRep (ty : cty) (n : nat) | KSlice (ty : cty) (m n : nat).   (* the types: an array of n elements; n elements of an array of m *)
Inductive sexp :=
| SId (t : cty) (x : rid)
| SOp (op : top) (args : list sexp)
| SPar (k : pkind) (e : sexp) (cs : list sexp)
| SCond (c x y : sexp)
| SCall (ts : list cty) (t : cty) (f : nat) (gens args : list sexp).
Inductive sacc := SASel (i : sexp) | SAMem (m : string) | SAElt (k : nat).
Inductive sstmt :=
| SDef (x : rid) (t : cty) (e : sexp)
| SSet (x : rid) (t : cty) (p : list sacc) (e : sexp)
| SAssert (e : sexp) (err : Z)
| SLog (fmt : Z) (args : list sexp)
| SEmb (x : rid) (t : cty) (em : embed) (args : list sexp)
| SFor (x : rid) (from to : sexp) (body : list sstmt).
(** typed/mod.rs TypedFunctionSymbol: a function of the program or a built-in one. *)
Inductive sfun := Here (gens : list nat) (params : list (nat * cty)) (body : list sstmt) (ret : sexp) | Flat (em : embed) (t : cty).
(** typed/mod.rs ConcreteFunctionKey: a function is found by its name, the values of its generic parameters and its concrete signature *)
Definition ftable := nat -> list Z -> list cty -> cty -> option sfun.
Definition src (x : nat) : rid := (0%nat, Name x, 0%nat).
Record sprog := mkSProg { sargs : list (rid * cty * bool); sbody : list sstmt; sret : sexp; sretty : cty }.

(** ** Semantics *)
Definition renv := rid -> option value_.
Definition rupd (rho : renv) (x : rid) (v : value_) : renv := fun y => if rid_eqb y x then Some v else rho y.
Definition nums (l : list value_) : option (list Z) := opt_list (map (fun v => match v with VUint _ n => Some n | _ => None end) l).
Definition par_op (k : pkind) (ns : list Z) : option top :=
  match k, ns with
  | KPow, [n] => Some (OPow (Z.to_N n))
  | KShl w, [n] => Some (OShl w (Z.to_nat n))
  | KShr w, [n] => Some (OShr w (Z.to_nat n))
  | KRep ty n, [c] => if c =? Z.of_nat n then Some (ORep ty n) else None
  | KSlice ty m n, [a; b] => if (0 <=? a) && (a <=? b) && (b <=? Z.of_nat m) && (b - a =? Z.of_nat n) then Some (OSlice ty (Z.to_nat a) (Z.to_nat b)) else None
  | _, _ => None
  end.
Definition eval_list {A} (ev : A -> outcome (list entry * value_)) : list A -> outcome (list entry * list value_) :=
  fix go l := match l with
  | [] => Ok ([], [])
  | e :: r => obnd (ev e) (fun a => obnd (go r) (fun b => Ok (fst a ++ fst b, snd a :: snd b)))
  end.
Definition is_slit (e : sexp) : bool := match e with SOp (OFVal _) [] => true | _ => false end.
(** a call: the function, the values of the generic parameters and of the arguments *)
Definition caller := nat -> list Z -> list cty -> cty -> list value_ -> outcome (list entry * value_).
Definition nocall : caller := fun _ _ _ _ _ => Stuck.
Fixpoint seval (call : caller) (rho : renv) (e : sexp) : outcome (list entry * value_) :=
  match e with
  | SId _ x => obnd (of_opt (rho x)) (fun v => Ok ([], v))
  | SOp op args => obnd (eval_list (seval call rho) args) (fun a => obnd (sem_op op (map is_slit args) (snd a)) (fun v => Ok (fst a, v)))
  | SPar k e cs => obnd (seval call rho e) (fun a => obnd (eval_list (seval call rho) cs) (fun b => obnd (of_opt (nums (snd b))) (fun ns => obnd (of_opt (par_op k ns)) (fun op =>
      obnd (sem_op op [] [snd a]) (fun v => Ok (fst a ++ fst b, v))))))
  | SCond c x y => obnd (seval call rho c) (fun a => obnd (seval call rho x) (fun b => obnd (seval call rho y) (fun d =>
      match snd a with VBool k => Ok (fst a ++ fst b ++ fst d, if k then snd b else snd d) | _ => Stuck end)))
  | SCall ts t f gens args => obnd (eval_list (seval call rho) gens) (fun g => obnd (eval_list (seval call rho) args) (fun a => obnd (of_opt (nums (snd g))) (fun ns =>
      obnd (call f ns ts t (snd a)) (fun r => Ok (fst g ++ fst a ++ fst r, snd r)))))
  end.
Definition sevals call rho := eval_list (seval call rho).
Fixpoint ssteps (call : caller) (rho : renv) (p : list sacc) : outcome (list entry * list step) :=
  match p with
  | [] => Ok ([], [])
  | SASel i :: r => obnd (seval call rho i) (fun a => obnd (ssteps call rho r) (fun b => match snd a with VUint _ k => Ok (fst a ++ fst b, PIdx k :: snd b) | _ => Stuck end))
  | SAMem m :: r => obnd (ssteps call rho r) (fun b => Ok (fst b, PMem m :: snd b))
  | SAElt k :: r => obnd (ssteps call rho r) (fun b => Ok (fst b, PElt k :: snd b))
  end.
Definition zrange (a b : Z) : list Z := map (fun k => a + Z.of_nat k) (seq 0 (Z.to_nat (b - a))).
Definition exec_list {A} (ex : renv -> A -> outcome (list entry * renv)) : renv -> list A -> outcome (list entry * renv) :=
  fix go rho l := match l with
  | [] => Ok ([], rho)
  | s :: r => obnd (ex rho s) (fun a => obnd (go (snd a) r) (fun b => Ok (fst a ++ fst b, snd b)))
  end.
(** The right-hand side of an assignment is evaluated before the indices of its left-hand side. A loop evaluates its bounds once and runs its
    body for each value from the first bound up to, not including, the second. *)
Fixpoint sexec (call : caller) (rho : renv) (s : sstmt) : outcome (list entry * renv) :=
  match s with
  | SDef x _ e => obnd (seval call rho e) (fun a => Ok (fst a, rupd rho x (snd a)))
  | SSet x _ p e => obnd (seval call rho e) (fun a => obnd (ssteps call rho p) (fun ps => obnd (of_opt (rho x)) (fun v =>
      obnd (of_put (put (snd ps) (snd a) v)) (fun v' => Ok (fst a ++ fst ps, rupd rho x v')))))
  | SAssert e _ => obnd (seval call rho e) (fun a => match snd a with VBool true => Ok (fst a, rho) | VBool false => Failed | _ => Stuck end)
  | SLog fmt args => obnd (sevals call rho args) (fun a => Ok (fst a ++ [(fmt, snd a)], rho))
  | SEmb x _ em args => obnd (sevals call rho args) (fun a => obnd (sem_emb em (snd a)) (fun v => Ok (fst a, rupd rho x v)))
  | SFor x from to body => obnd (seval call rho from) (fun a => obnd (seval call rho to) (fun b =>
      match snd a, snd b with
      | VUint _ i, VUint _ j => obnd (exec_list (fun rho k => exec_list (sexec call) (rupd rho x (VUint W32 k)) body) rho (zrange i j)) (fun r => Ok (fst a ++ fst b ++ fst r, snd r))
      | _, _ => Stuck
      end))
  end.
Definition sexecs call := exec_list (sexec call).
Fixpoint rbind (rho : renv) (ps : list rid) (vs : list value_) : renv := match ps, vs with p :: r, v :: s => rbind (rupd rho p v) r s | _, _ => rho end.
(** calls nested to a depth of at most [n]; a function is called with its arguments, and the values of its generic parameters are variables of its body *)
Fixpoint scall (funs : ftable) (n : nat) : caller := fun f gs ts t vs =>
  match n with
  | O => Stuck
  | S n =>
    match funs f gs ts t with
    | Some (Here gens params body ret) =>
        if (length params =? length vs)%nat && (length gens =? length gs)%nat then
        let rho := rbind (rbind (fun _ => None) (map (fun q => src (fst q)) params) vs) (map src gens) (map (VUint W32) gs) in
        obnd (sexecs (scall funs n) rho body) (fun a => obnd (seval (scall funs n) (snd a) ret) (fun b => Ok (fst a ++ fst b, snd b)))
        else Stuck
    | Some (Flat em _) => obnd (sem_emb em vs) (fun v => Ok ([], v))
    | None => Stuck
    end
  end.
Definition srun (call : caller) (p : sprog) (vs : list value_) : outcome (value_ * list entry) :=
  obnd (sexecs call (rbind (fun _ => None) (map (fun q => fst (fst q)) (sargs p)) vs) (sbody p)) (fun a => obnd (seval call (snd a) (sret p)) (fun b => Ok (snd b, fst a ++ fst b))).
End Src.
