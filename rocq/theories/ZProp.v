(** Model of constant propagation, /repo/zokrates_analysis/src/zir_propagation.rs (ZirPropagator), and its correctness on
    expressions. [None] stands for a compilation error (DivisionByZero, OutOfBounds, AssertionFailed) or a panic (constant
    remainder by zero). Exponents and shift amounts are literals here (see Zir.v), so folding them is not modelled; neither
    are the field bitwise operators. Assembly statements are in Asm.v. *)
From Coq Require Import ZArith NArith List Bool Lia Ring Field.
From Verif Require Import PField IR Interp Bits Flat Zir Codegen CgBase CgExpr CgProg CgWf CgEnd UintOpt UintOptProofs Panic DeadCode.
Import ListNotations.
Open Scope Z_scope.

Section ZProp.
Context {PF : PrimeField}.
Notation "x <~ m ; k" := (obind m (fun x => k)) (at level 61, m at next level, right associativity).

(** literals *)
Definition fconst (e : zexp) : option Z := match e with ZFVal c => Some (fval c) | _ => None end.
Definition uconst (e : zexp) : option Z := match e with ZUVal _ n => Some n | _ => None end.
Definition bconst (e : zexp) : option bool := match e with ZBVal b => Some b | _ => None end.
Definition is_const (e : zexp) : bool := match e with ZFVal _ | ZUVal _ _ | ZBVal _ => true | _ => false end.
Definition isk (o : option Z) (k : Z) : bool := match o with Some n => n =? k | None => false end.
Definition isb (o : option bool) (k : bool) : bool := match o with Some b => eqb b k | None => false end.

(** l.44 Constants: HashMap from identifiers to literals *)
Definition cenv := ident -> option zexp.
Definition cadd (C : cenv) (x : ident) (e : zexp) : cenv := fun y => if y =? x then Some e else C y.
Definition cdel (C : cenv) (x : ident) : cenv := fun y => if y =? x then None else C y.
Definition cdels (C : cenv) (xs : list ident) : cenv := fold_left cdel xs C.

(** l.269-345 Add, Sub, Mult, Div *)
Definition pfbin (op : fop) (l r : zexp) : option zexp :=
  match op with
  | FAdd => if isk (fconst l) 0 then Some r else if isk (fconst r) 0 then Some l else
            match l, r with ZFVal x, ZFVal y => Some (ZFVal (fadd x y)) | _, _ => Some (ZFBin FAdd l r) end
  | FSub => if isk (fconst r) 0 then Some l else
            match l, r with ZFVal x, ZFVal y => Some (ZFVal (fsub x y)) | _, _ => Some (ZFBin FSub l r) end
  | FMul => if isk (fconst l) 0 || isk (fconst r) 0 then Some (ZFVal f0) else
            if isk (fconst l) 1 then Some r else if isk (fconst r) 1 then Some l else
            match l, r with ZFVal x, ZFVal y => Some (ZFVal (fmul x y)) | _, _ => Some (ZFBin FMul l r) end
  | FDiv => if isk (fconst r) 0 then None else if isk (fconst r) 1 then Some l else
            match l, r with ZFVal x, ZFVal y => Some (ZFVal (fdiv x y)) | _, _ => Some (ZFBin FDiv l r) end
  end.
(** l.346-362 Pow *)
Definition ppow (e : zexp) (n : N) : option zexp :=
  if N.eqb n 0 then Some (ZFVal f1) else if N.eqb n 1 then Some e else
  match e with ZFVal x => Some (ZFVal (of_Z (fval x ^ Z.of_N n))) | _ => Some (ZPow e n) end.
(** l.496-579 comparisons *)
Definition pcmp (op : cmpop) (l r : zexp) : option zexp :=
  match op with
  | CFLt => match l, r with
            | ZFVal x, ZFVal y => Some (ZBVal (fval x <? fval y))
            | _, _ => if isk (fconst r) 0 then Some (ZBVal false) else if isk (fconst l) (pp - 1) then Some (ZBVal false) else Some (ZCmp CFLt l r)
            end
  | CFLe => match l, r with ZFVal x, ZFVal y => Some (ZBVal (fval x <=? fval y)) | _, _ => Some (ZCmp CFLe l r) end
  | CFEq => match l, r with
            | ZFVal x, ZFVal y => Some (ZBVal (fval x =? fval y))
            | _, _ => if zexp_eqb l r then Some (ZBVal true) else Some (ZCmp CFEq l r)
            end
  | CULt => match l, r with ZUVal _ x, ZUVal _ y => Some (ZBVal (x <? y)) | _, _ => Some (ZCmp CULt l r) end
  | CULe => match l, r with ZUVal _ x, ZUVal _ y => Some (ZBVal (x <=? y)) | _, _ => Some (ZCmp CULe l r) end
  | CUEq => match l, r with
            | ZUVal _ x, ZUVal _ y => Some (ZBVal (x =? y))
            | _, _ => if zexp_eqb l r then Some (ZBVal true) else Some (ZCmp CUEq l r)
            end
  end.
(** l.580-637 BoolEq, Or, And, Not *)
Definition pbbin (op : bop) (l r : zexp) : option zexp :=
  match op with
  | BEq => match l, r with
           | ZBVal x, ZBVal y => Some (ZBVal (eqb x y))
           | _, _ => if zexp_eqb l r then Some (ZBVal true) else Some (ZBBin BEq l r)
           end
  | BOr => match l, r with
           | ZBVal x, ZBVal y => Some (ZBVal (x || y))
           | _, _ => if isb (bconst r) true || isb (bconst l) true then Some (ZBVal true) else
                     if isb (bconst r) false then Some l else if isb (bconst l) false then Some r else Some (ZBBin BOr l r)
           end
  | BAnd => if isb (bconst l) true then Some r else if isb (bconst r) true then Some l else
            if isb (bconst l) false || isb (bconst r) false then Some (ZBVal false) else Some (ZBBin BAnd l r)
  end.
Definition pbnot (e : zexp) : option zexp := match e with ZBVal b => Some (ZBVal (negb b)) | _ => Some (ZBNot e) end.
(** l.670-850 unsigned operators. The code re-annotates the operands with the bitwidth of the expression, which is theirs
    already. Values are u128; bitwidths are at most 64, so reducing modulo 2^128 first (wrapping_sub, !) is left out. *)
Definition pubin (a : ann) (op : uop) (l r : zexp) : option zexp :=
  let w := uw a in
  let node := Some (ZUBin a op l r) in
  match op with
  | UAdd => if isk (uconst l) 0 then Some r else if isk (uconst r) 0 then Some l else
            match l, r with ZUVal _ x, ZUVal _ y => Some (ZUVal a ((x + y) mod pow2 w)) | _, _ => node end
  | USub => if isk (uconst r) 0 then Some l else
            match l, r with ZUVal _ x, ZUVal _ y => Some (ZUVal a ((x - y) mod pow2 w)) | _, _ => node end
  | UMul => if isk (uconst r) 0 || isk (uconst l) 0 then Some (ZUVal a 0) else
            if isk (uconst r) 1 then Some l else if isk (uconst l) 1 then Some r else
            match l, r with ZUVal _ x, ZUVal _ y => Some (ZUVal a ((x * y) mod pow2 w)) | _, _ => node end
  | UDiv => if isk (uconst r) 0 then None else if isk (uconst r) 1 then Some l else
            match l, r with ZUVal _ x, ZUVal _ y => Some (ZUVal a ((x / y) mod pow2 w)) | _, _ => node end
  | URem => match l, r with ZUVal _ x, ZUVal _ y => if y =? 0 then None else Some (ZUVal a ((x mod y) mod pow2 w)) | _, _ => node end
  | UXor => match l, r with
            | ZUVal _ x, ZUVal _ y => Some (ZUVal a (Z.lxor x y))
            | _, _ => if zexp_eqb l r then Some (ZUVal a 0) else node
            end
  | UAnd => if isk (uconst r) (pow2 w - 1) then Some l else if isk (uconst l) (pow2 w - 1) then Some r else
            if isk (uconst r) 0 || isk (uconst l) 0 then Some (ZUVal a 0) else
            match l, r with ZUVal _ x, ZUVal _ y => Some (ZUVal a (Z.land x y)) | _, _ => node end
  | UOr => if isk (uconst r) 0 then Some l else if isk (uconst l) 0 then Some r else
           if isk (uconst r) (pow2 w - 1) || isk (uconst l) (pow2 w - 1) then Some (ZUVal a (pow2 w - 1)) else
           match l, r with ZUVal _ x, ZUVal _ y => Some (ZUVal a (Z.lor x y)) | _, _ => node end
  end.
(** l.815-860 LeftShift, RightShift, Not *)
Definition pshl (a : ann) (e : zexp) (k : nat) : option zexp :=
  if Nat.eqb k 0 then Some e else if Nat.leb (uw a) k then Some (ZUVal a 0) else
  match e with ZUVal _ x => Some (ZUVal a (Z.land (Z.shiftl x (Z.of_nat k)) (pow2 (uw a) - 1))) | _ => Some (ZShl a e k) end.
Definition pshr (a : ann) (e : zexp) (k : nat) : option zexp :=
  if Nat.eqb k 0 then Some e else if Nat.leb (uw a) k then Some (ZUVal a 0) else
  match e with ZUVal _ x => Some (ZUVal a (Z.shiftr x (Z.of_nat k))) | _ => Some (ZShr a e k) end.
Definition punot (a : ann) (e : zexp) : option zexp :=
  match e with ZUVal _ x => Some (ZUVal a (Z.land (Z.lnot x) (pow2 (uw a) - 1))) | _ => Some (ZUNot a e) end.
(** l.639-668 select *)
Definition psel (k : kind) (es : list zexp) (i : zexp) : option zexp :=
  match i with ZUVal _ n => nth_error es (Z.to_nat n) | _ => Some (ZSel k es i) end.

Fixpoint prop (C : cenv) (e : zexp) : option zexp :=
  match e with
  | ZFVal _ | ZBVal _ | ZUVal _ _ => Some e
  (* l.247-258 *)
  | ZId k x => match C x with Some c => Some c | None => Some (ZId k x) end
  | ZFBin op l r => l' <~ prop C l; r' <~ prop C r; pfbin op l' r'
  | ZPow e n => e' <~ prop C e; ppow e' n
  | ZCmp op l r => l' <~ prop C l; r' <~ prop C r; pcmp op l' r'
  | ZBBin op l r => l' <~ prop C l; r' <~ prop C r; pbbin op l' r'
  | ZBNot e => e' <~ prop C e; pbnot e'
  | ZUBin a op l r => l' <~ prop C l; r' <~ prop C r; pubin a op l' r'
  | ZUNot a e => e' <~ prop C e; punot a e'
  | ZShl a e k => e' <~ prop C e; pshl a e' k
  | ZShr a e k => e' <~ prop C e; pshr a e' k
  (* l.863-897: only the taken branch is folded when the condition is constant *)
  | ZCond k c x y =>
      c' <~ prop C c;
      if isb (bconst c') true then prop C x else if isb (bconst c') false then prop C y else
      x' <~ prop C x; y' <~ prop C y; Some (if zexp_eqb x' y' then x' else ZCond k c' x' y')
  | ZSel k es i => i' <~ prop C i; es' <~ mapO (prop C) es; psel k es' i'
  end.

(** l.60-76 fold_function over l.171-245 statements *)
Fixpoint prop_stmt (C : cenv) (s : zstmt) : option (cenv * list zstmt) :=
  match s with
  | ZReturn es => es' <~ mapO (prop C) es; Some (C, [ZReturn es'])
  | ZLog f es => es' <~ mapO (prop C) es; Some (C, [ZLog f es'])
  | ZDef x e => e' <~ prop C e; Some (if is_const e' then (cadd C x e', []) else (cdel C x, [ZDef x e']))
  | ZAssert e err =>
      e' <~ prop C e;
      if isb (bconst e') true then Some (C, []) else if isb (bconst e') false then None else Some (C, [ZAssert e' err])
  | ZEmbed xs em es => es' <~ mapO (prop (cdels C xs)) es; Some (cdels C xs, [ZEmbed xs em es'])
  | ZIf c a b =>
      c' <~ prop C c;
      let go := fix go (C : cenv) (l : list zstmt) : option (cenv * list zstmt) :=
        match l with [] => Some (C, []) | s :: r => p <~ prop_stmt C s; q <~ go (fst p) r; Some (fst q, snd p ++ snd q) end in
      if isb (bconst c') true then go C a else if isb (bconst c') false then go C b else
      p <~ go C a; q <~ go (fst p) b; Some (fst q, [ZIf c' (snd p) (snd q)])
  end.
Fixpoint prop_stmts (C : cenv) (l : list zstmt) : option (cenv * list zstmt) :=
  match l with [] => Some (C, []) | s :: r => p <~ prop_stmt C s; q <~ prop_stmts (fst p) r; Some (fst q, snd p ++ snd q) end.
(** l.55 propagate *)
Definition propagate (p : zprog) : option zprog :=
  r <~ prop_stmts (fun _ => None) (zbody p); Some (mkZProg (zargs p) (snd r) (zret p)).

Lemma prop_if : forall C c a b, prop_stmt C (ZIf c a b) =
  (c' <~ prop C c;
   if isb (bconst c') true then prop_stmts C a else if isb (bconst c') false then prop_stmts C b else
   p <~ prop_stmts C a; q <~ prop_stmts (fst p) b; Some (fst q, [ZIf c' (snd p) (snd q)])).
Proof. reflexivity. Qed.

(** ** Values and types *)
Definition vtr (v : val) (t : ptype) : Prop :=
  match v, t with VF _, PF_ | VB _, PB_ => True | VU n, PU_ w => 0 <= n < pow2 w | _, _ => False end.
Definition env_tr (S : senv) (rho : env_s) : Prop := forall x t v, S x = Some t -> rho x = Some v -> vtr v t.

Lemma vtr_F : forall v, vtr v PF_ -> exists x, v = VF x. Proof. intros [x|x|x] H; cbn in H; try contradiction; eauto. Qed.
Lemma vtr_B : forall v, vtr v PB_ -> exists x, v = VB x. Proof. intros [x|x|x] H; cbn in H; try contradiction; eauto. Qed.
Lemma vtr_U : forall v w, vtr v (PU_ w) -> exists x, v = VU x /\ 0 <= x < pow2 w. Proof. intros [x|x|x] w H; cbn in H; try contradiction; eauto. Qed.

Lemma opt_list_nth : forall A (l : list (option A)) vs n v, opt_list l = Some vs -> nth_error vs n = Some v -> nth_error l n = Some (Some v).
Proof.
  induction l as [|a l IH]; intros vs n v E H; cbn in E.
  - injection E as <-. destruct n; discriminate H.
  - destruct a as [a|]; [|discriminate E]. destruct (opt_list l) as [ws|] eqn:El; [|discriminate E]. injection E as <-. destruct n; cbn in *; [congruence|eauto].
Qed.
Lemma sem_vtr : forall e S rho t v, has_ty S e t -> env_tr S rho -> sem rho e = Some v -> vtr v t.
Proof.
  induction e using zexp_ind'; intros S rho t v Ht He E; cbn [has_ty sem] in *.
  - subst. injection E as <-. exact I.
  - subst. injection E as <-. exact I.
  - destruct Ht as [-> [_ Hn]]. injection E as <-. exact Hn.
  - destruct Ht as [_ [Ht _]]. eapply He; eauto.
  - destruct Ht as [-> _]. destruct (sem rho e1) as [[]|]; try discriminate E. destruct (sem rho e2) as [[]|]; try discriminate E.
    destruct (sem_fop op x x0); [|discriminate E]. injection E as <-. exact I.
  - destruct Ht as [-> _]. destruct (sem rho e) as [[]|]; try discriminate E. injection E as <-. exact I.
  - destruct Ht as [-> _]. destruct (sem rho e1) as [[]|]; try discriminate E; destruct (sem rho e2) as [[]|]; try discriminate E; destruct op; try discriminate E;
      try (destruct (fcmp_defined _ _ _ _); [|discriminate E]); injection E as <-; exact I.
  - destruct Ht as [-> _]. destruct (sem rho e1) as [[]|]; try discriminate E; destruct (sem rho e2) as [[]|]; try discriminate E. injection E as <-. exact I.
  - destruct Ht as [-> _]. destruct (sem rho e) as [[]|]; try discriminate E. injection E as <-. exact I.
  - destruct Ht as [-> [Hw [H1 H2]]]. destruct (sem rho e1) as [v1|] eqn:E1; [|discriminate E]. destruct (sem rho e2) as [v2|] eqn:E2; [|destruct v1; discriminate E].
    destruct (vtr_U _ _ (IHe1 _ _ _ _ H1 He E1)) as [x [-> Hx]]. destruct (vtr_U _ _ (IHe2 _ _ _ _ H2 He E2)) as [y [-> Hy]].
    destruct (sem_uop op (uw a) x y) as [z|] eqn:Ez; [|discriminate E]. injection E as <-. cbn [vtr]. pose proof (pow2_pos (uw a)) as Hp.
    destruct op; cbn [sem_uop] in Ez; try (injection Ez as <-; unfold wrap; apply Z.mod_pos_bound; exact Hp).
    + destruct (Z.eqb_spec y 0); [discriminate Ez|]. injection Ez as <-. split; [apply Z.div_pos; lia|]. apply Z.div_lt_upper_bound; [lia|]. nia.
    + destruct (Z.eqb_spec y 0); [discriminate Ez|]. injection Ez as <-. pose proof (Z.mod_pos_bound x y). pose proof (Z.mod_le x y). lia.
    + injection Ez as <-. apply lxor_range; auto.
    + injection Ez as <-. apply land_range; auto.
    + injection Ez as <-. apply lor_range; auto.
  - destruct Ht as [-> [Hw H1]]. destruct (sem rho e) as [v1|] eqn:E1; [|discriminate E]. destruct (vtr_U _ _ (IHe _ _ _ _ H1 He E1)) as [x [-> Hx]]. injection E as <-. cbn [vtr]. unfold pow2 in *. lia.
  - destruct Ht as [-> [Hw [_ H1]]]. destruct (sem rho e) as [v1|] eqn:E1; [|discriminate E]. destruct (vtr_U _ _ (IHe _ _ _ _ H1 He E1)) as [x [-> Hx]]. injection E as <-. cbn [vtr].
    apply Z.mod_pos_bound. apply (pow2_pos (uw a)).
  - destruct Ht as [-> [Hw [_ H1]]]. destruct (sem rho e) as [v1|] eqn:E1; [|discriminate E]. destruct (vtr_U _ _ (IHe _ _ _ _ H1 He E1)) as [x [-> Hx]]. injection E as <-. cbn [vtr].
    pose proof (pow2_pos k) as Hk. unfold pow2 in Hk. split; [apply Z.div_pos; lia|]. apply Z.div_lt_upper_bound; [lia|]. unfold pow2 in *. nia.
  - destruct Ht as [_ [_ [_ [H1 H2]]]]. destruct (sem rho e1) as [[]|]; try discriminate E. destruct (sem rho e2) as [v1|] eqn:E2; [|discriminate E]. destruct (sem rho e3) as [v2|] eqn:E3; [|discriminate E].
    injection E as <-. destruct b; eauto.
  - destruct Ht as [_ [_ [_ [_ [_ [_ Hes]]]]]]. destruct (sem rho e) as [[]|]; try discriminate E. destruct (opt_list (map (sem rho) es)) as [vs|] eqn:Ev; [|discriminate E].
    destruct (0 <=? n); [|discriminate E]. apply has_sel_go in Hes. pose proof (opt_list_nth _ _ _ _ _ Ev E) as Hn.
    rewrite nth_error_map in Hn. destruct (nth_error es (Z.to_nat n)) as [e'|] eqn:En; [|discriminate Hn]. injection Hn as Hn.
    rewrite Forall_forall in H, Hes. apply nth_error_In in En. eapply H; eauto.
Qed.

(** ** Folded expressions keep the value *)
Definition cst_ok (C : cenv) (rho : env_s) : Prop := forall x c, C x = Some c -> is_const c = true /\ sem rho c = rho x.

Lemma isk_f : forall e k, isk (fconst e) k = true -> exists c, e = ZFVal c /\ fval c = k.
Proof. intros e k H. destruct e; try discriminate H. cbn in H. apply Z.eqb_eq in H. eauto. Qed.
Lemma isk_u : forall e k, isk (uconst e) k = true -> exists a, e = ZUVal a k.
Proof. intros e k H. destruct e; try discriminate H. cbn in H. apply Z.eqb_eq in H. subst. eauto. Qed.
Lemma isb_b : forall e k, isb (bconst e) k = true -> e = ZBVal k.
Proof. intros e k H. destruct e; try discriminate H. cbn in H. apply eqb_prop in H. subst. reflexivity. Qed.
Lemma fval0 : forall c : F, fval c = 0 -> c = f0.
Proof. intros c H. apply F_ext. rewrite H. symmetry. apply fval_of_Z_small. pose proof pp_gt1. lia. Qed.
Lemma fval1 : forall c : F, fval c = 1 -> c = f1.
Proof. intros c H. apply F_ext. rewrite H. symmetry. apply fval_of_Z_small. pose proof pp_gt1. lia. Qed.
Lemma wrap_id : forall w x, 0 <= x < pow2 w -> wrap w x = x.
Proof. intros w x H. unfold wrap. apply Z.mod_small. exact H. Qed.

Add Field Fzp : F_field_th.

(** [keeps rho r v]: the folded expression exists and has value v *)
Definition keeps (rho : env_s) (r : option zexp) (v : val) : Prop := exists e, r = Some e /\ sem rho e = Some v.
Lemma keeps_intro : forall rho e v, sem rho e = Some v -> keeps rho (Some e) v.
Proof. intros. exists e. auto. Qed.
Ltac kp := apply keeps_intro.

Lemma feqb0 : forall c, Feqb c f0 = true <-> fval c = 0.
Proof. intros c. unfold Feqb. rewrite Z.eqb_eq. replace (fval f0) with 0; [reflexivity|]. symmetry. apply fval_of_Z_small. pose proof pp_gt1. lia. Qed.
Lemma pfbin_ok : forall rho op l r x y z, sem rho l = Some (VF x) -> sem rho r = Some (VF y) -> sem_fop op x y = Some z -> keeps rho (pfbin op l r) (VF z).
Proof.
  intros rho op l r x y z Hl Hr Hz.
  assert (G : sem rho (ZFBin op l r) = Some (VF z)) by (cbn [sem]; rewrite Hl, Hr, Hz; reflexivity).
  assert (GV : match l, r with ZFVal a, ZFVal b => Some (VF x) = sem rho (ZFVal a) /\ Some (VF y) = sem rho (ZFVal b) | _, _ => True end) by (destruct l; auto; destruct r; auto).
  destruct op; cbn [pfbin sem_fop] in *.
  - injection Hz as <-. destruct (isk (fconst l) 0) eqn:E1; [|destruct (isk (fconst r) 0) eqn:E2].
    + apply isk_f in E1 as [c [-> E1]]. apply fval0 in E1. subst c. cbn in Hl. injection Hl as <-. kp. rewrite Hr. do 2 f_equal; ring.
    + apply isk_f in E2 as [c [-> E2]]. apply fval0 in E2. subst c. cbn in Hr. injection Hr as <-. kp. rewrite Hl. do 2 f_equal; ring.
    + destruct l; try (kp; exact G); destruct r; try (kp; exact G); cbn [sem] in *; injection Hl as ->; injection Hr as ->; kp; reflexivity.
  - injection Hz as <-. destruct (isk (fconst r) 0) eqn:E2.
    + apply isk_f in E2 as [c [-> E2]]. apply fval0 in E2. subst c. cbn in Hr. injection Hr as <-. kp. rewrite Hl. do 2 f_equal; ring.
    + destruct l; try (kp; exact G); destruct r; try (kp; exact G); cbn [sem] in *; injection Hl as ->; injection Hr as ->; kp; reflexivity.
  - injection Hz as <-. destruct (isk (fconst l) 0) eqn:E1; [|destruct (isk (fconst r) 0) eqn:E2]; cbn [orb].
    + apply isk_f in E1 as [c [-> E1]]. apply fval0 in E1. subst c. cbn in Hl. injection Hl as <-. kp. cbn [sem]. do 2 f_equal; ring.
    + apply isk_f in E2 as [c [-> E2]]. apply fval0 in E2. subst c. cbn in Hr. injection Hr as <-. kp. cbn [sem]. do 2 f_equal; ring.
    + destruct (isk (fconst l) 1) eqn:E3; [|destruct (isk (fconst r) 1) eqn:E4].
      * apply isk_f in E3 as [c [-> E3]]. apply fval1 in E3. subst c. cbn in Hl. injection Hl as <-. kp. rewrite Hr. do 2 f_equal; ring.
      * apply isk_f in E4 as [c [-> E4]]. apply fval1 in E4. subst c. cbn in Hr. injection Hr as <-. kp. rewrite Hl. do 2 f_equal; ring.
      * destruct l; try (kp; exact G); destruct r; try (kp; exact G); cbn [sem] in *; injection Hl as ->; injection Hr as ->; kp; reflexivity.
  - destruct (Feqb y f0) eqn:Ey; [discriminate Hz|]. injection Hz as <-. destruct (isk (fconst r) 0) eqn:E1; [|destruct (isk (fconst r) 1) eqn:E2].
    + apply isk_f in E1 as [c [-> E1]]. cbn in Hr. injection Hr as <-. apply feqb0 in E1. congruence.
    + apply isk_f in E2 as [c [-> E2]]. apply fval1 in E2. subst c. cbn in Hr. injection Hr as <-. kp. rewrite Hl. do 2 f_equal; field; apply F_1_neq_0.
    + destruct l; try (kp; exact G); destruct r; try (kp; exact G); cbn [sem] in *; injection Hl as ->; injection Hr as ->; kp; reflexivity.
Qed.
Lemma ppow_ok : forall rho e n x, sem rho e = Some (VF x) -> keeps rho (ppow e n) (VF (of_Z (fval x ^ Z.of_N n))).
Proof.
  intros rho e n x H. unfold ppow. destruct (N.eqb_spec n 0) as [->|]; [kp; reflexivity|]. destruct (N.eqb_spec n 1) as [->|].
  - kp. rewrite H. do 2 f_equal. change (Z.of_N 1) with 1. rewrite Z.pow_1_r. symmetry. apply of_Z_fval.
  - assert (G : sem rho (ZPow e n) = Some (VF (of_Z (fval x ^ Z.of_N n)))) by (cbn [sem]; rewrite H; reflexivity).
    destruct e; try (kp; exact G); cbn [sem] in H; injection H as ->; kp; reflexivity.
Qed.
Lemma pcmp_f_ok : forall rho op l r x y v, sem rho l = Some (VF x) -> sem rho r = Some (VF y) -> sem rho (ZCmp op l r) = Some v -> keeps rho (pcmp op l r) v.
Proof.
  intros rho op l r x y v Hl Hr G. pose proof G as G0. cbn [sem] in G0. rewrite Hl, Hr in G0. pose proof (fval_range x) as Rx. pose proof (fval_range y) as Ry.
  destruct op; cbn [pcmp]; try discriminate G0.
  - destruct (fcmp_defined l r x y) eqn:Ed; [|discriminate G0]. injection G0 as <-.
    assert (Z1 : keeps rho (if isk (fconst r) 0 then Some (ZBVal false) else if isk (fconst l) (pp - 1) then Some (ZBVal false) else Some (ZCmp CFLt l r)) (VB (fval x <? fval y))).
    { destruct (isk (fconst r) 0) eqn:E1; [|destruct (isk (fconst l) (pp - 1)) eqn:E2].
      - apply isk_f in E1 as [c [-> E1]]. cbn in Hr. injection Hr as <-. kp. cbn [sem]. do 2 f_equal. symmetry. apply Z.ltb_ge. lia.
      - apply isk_f in E2 as [c [-> E2]]. cbn in Hl. injection Hl as <-. kp. cbn [sem]. do 2 f_equal. symmetry. apply Z.ltb_ge. lia.
      - kp. exact G. }
    destruct l; try exact Z1. destruct r; try exact Z1. cbn [sem] in Hl, Hr. injection Hl as ->. injection Hr as ->. kp. reflexivity.
  - destruct (fcmp_defined l r x y) eqn:Ed; [|discriminate G0]. injection G0 as <-.
    destruct l; try (kp; exact G); destruct r; try (kp; exact G); cbn [sem] in Hl, Hr; injection Hl as ->; injection Hr as ->; kp; reflexivity.
  - injection G0 as <-.
    assert (Z1 : keeps rho (if zexp_eqb l r then Some (ZBVal true) else Some (ZCmp CFEq l r)) (VB (fval x =? fval y))).
    { destruct (zexp_eqb l r) eqn:E; [|kp; exact G]. apply zexp_eqb_eq in E. subst r. rewrite Hl in Hr. injection Hr as ->. kp. rewrite Z.eqb_refl. reflexivity. }
    destruct l; try exact Z1. destruct r; try exact Z1. cbn [sem] in Hl, Hr. injection Hl as ->. injection Hr as ->. kp. reflexivity.
Qed.
Lemma pcmp_u_ok : forall rho op l r x y v, sem rho l = Some (VU x) -> sem rho r = Some (VU y) -> sem rho (ZCmp op l r) = Some v -> keeps rho (pcmp op l r) v.
Proof.
  intros rho op l r x y v Hl Hr G. pose proof G as G0. cbn [sem] in G0. rewrite Hl, Hr in G0.
  destruct op; cbn [pcmp]; try discriminate G0; injection G0 as <-.
  - destruct l; try (kp; exact G); destruct r; try (kp; exact G); cbn [sem] in Hl, Hr; injection Hl as ->; injection Hr as ->; kp; reflexivity.
  - destruct l; try (kp; exact G); destruct r; try (kp; exact G); cbn [sem] in Hl, Hr; injection Hl as ->; injection Hr as ->; kp; reflexivity.
  - assert (Z1 : keeps rho (if zexp_eqb l r then Some (ZBVal true) else Some (ZCmp CUEq l r)) (VB (x =? y))).
    { destruct (zexp_eqb l r) eqn:E; [|kp; exact G]. apply zexp_eqb_eq in E. subst r. rewrite Hl in Hr. injection Hr as ->. kp. rewrite Z.eqb_refl. reflexivity. }
    destruct l; try exact Z1. destruct r; try exact Z1. cbn [sem] in Hl, Hr. injection Hl as ->. injection Hr as ->. kp. reflexivity.
Qed.
Lemma pbbin_ok : forall rho op l r x y, sem rho l = Some (VB x) -> sem rho r = Some (VB y) -> keeps rho (pbbin op l r) (VB (sem_bop op x y)).
Proof.
  intros rho op l r x y Hl Hr. assert (G : sem rho (ZBBin op l r) = Some (VB (sem_bop op x y))) by (cbn [sem]; rewrite Hl, Hr; reflexivity).
  destruct op; cbn [pbbin sem_bop] in *.
  - assert (Z1 : keeps rho (if zexp_eqb l r then Some (ZBVal true) else Some (ZBBin BEq l r)) (VB (eqb x y))).
    { destruct (zexp_eqb l r) eqn:E; [|kp; exact G]. apply zexp_eqb_eq in E. subst r. rewrite Hl in Hr. injection Hr as ->. kp. rewrite eqb_reflx. reflexivity. }
    destruct l; try exact Z1. destruct r; try exact Z1. cbn [sem] in Hl, Hr. injection Hl as ->. injection Hr as ->. kp. reflexivity.
  - assert (Z1 : keeps rho (if isb (bconst r) true || isb (bconst l) true then Some (ZBVal true) else if isb (bconst r) false then Some l else if isb (bconst l) false then Some r else Some (ZBBin BOr l r)) (VB (x || y))).
    { destruct (isb (bconst r) true) eqn:E1; [|destruct (isb (bconst l) true) eqn:E2; [|destruct (isb (bconst r) false) eqn:E3; [|destruct (isb (bconst l) false) eqn:E4]]]; cbn [orb].
      - apply isb_b in E1. subst r. cbn in Hr. injection Hr as <-. kp. rewrite orb_true_r. reflexivity.
      - apply isb_b in E2. subst l. cbn in Hl. injection Hl as <-. kp. reflexivity.
      - apply isb_b in E3. subst r. cbn in Hr. injection Hr as <-. kp. rewrite orb_false_r. exact Hl.
      - apply isb_b in E4. subst l. cbn in Hl. injection Hl as <-. kp. exact Hr.
      - kp. exact G. }
    destruct l; try exact Z1. destruct r; try exact Z1. cbn [sem] in Hl, Hr. injection Hl as ->. injection Hr as ->. kp. reflexivity.
  - destruct (isb (bconst l) true) eqn:E1; [|destruct (isb (bconst r) true) eqn:E2; [|destruct (isb (bconst l) false) eqn:E3; [|destruct (isb (bconst r) false) eqn:E4]]]; cbn [orb].
    + apply isb_b in E1. subst l. cbn in Hl. injection Hl as <-. kp. exact Hr.
    + apply isb_b in E2. subst r. cbn in Hr. injection Hr as <-. kp. rewrite andb_true_r. exact Hl.
    + apply isb_b in E3. subst l. cbn in Hl. injection Hl as <-. kp. reflexivity.
    + apply isb_b in E4. subst r. cbn in Hr. injection Hr as <-. kp. rewrite andb_false_r. reflexivity.
    + kp. exact G.
Qed.
Lemma lor_ones : forall w x, 0 <= x < pow2 w -> Z.lor x (pow2 w - 1) = pow2 w - 1.
Proof.
  intros w x H. destruct (Z.eq_dec x 0) as [->|]; [apply Z.lor_0_l|]. replace (pow2 w - 1) with (Z.ones (Z.of_nat w)) by (rewrite Z.ones_equiv; unfold pow2; lia). apply Z.lor_ones_low; [lia|].
  apply Z.log2_lt_pow2; [lia|]. apply H.
Qed.
Lemma land_ones : forall w x, 0 <= x < pow2 w -> Z.land x (pow2 w - 1) = x.
Proof.
  intros w x H. replace (pow2 w - 1) with (Z.ones (Z.of_nat w)) by (rewrite Z.ones_equiv; unfold pow2; lia). rewrite Z.land_ones by lia. apply Z.mod_small. exact H.
Qed.
Lemma land_mask : forall w x, Z.land x (pow2 w - 1) = x mod pow2 w.
Proof. intros w x. replace (pow2 w - 1) with (Z.ones (Z.of_nat w)) by (rewrite Z.ones_equiv; unfold pow2; lia). apply Z.land_ones. lia. Qed.

Lemma pubin_ok : forall rho a op l r x y z, 0 <= x < pow2 (uw a) -> 0 <= y < pow2 (uw a) -> sem rho l = Some (VU x) -> sem rho r = Some (VU y) ->
  sem_uop op (uw a) x y = Some z -> keeps rho (pubin a op l r) (VU z).
Proof.
  intros rho a op l r x y z Rx Ry Hl Hr Hz.
  assert (G : sem rho (ZUBin a op l r) = Some (VU z)) by (cbn [sem]; rewrite Hl, Hr, Hz; reflexivity). pose proof (pow2_pos (uw a)) as Hp.
  destruct op; cbn [pubin sem_uop] in *.
  - injection Hz as <-. destruct (isk (uconst l) 0) eqn:E1; [|destruct (isk (uconst r) 0) eqn:E2].
    + apply isk_u in E1 as [b ->]. cbn in Hl. injection Hl as <-. kp. rewrite Hr. cbn [Z.add]. rewrite wrap_id by auto. reflexivity.
    + apply isk_u in E2 as [b ->]. cbn in Hr. injection Hr as <-. kp. rewrite Hl, Z.add_0_r, wrap_id by auto. reflexivity.
    + destruct l; try (kp; exact G); destruct r; try (kp; exact G); cbn [sem] in *; injection Hl as ->; injection Hr as ->; kp; reflexivity.
  - injection Hz as <-. destruct (isk (uconst r) 0) eqn:E2.
    + apply isk_u in E2 as [b ->]. cbn in Hr. injection Hr as <-. kp. rewrite Hl, Z.sub_0_r, wrap_id by auto. reflexivity.
    + destruct l; try (kp; exact G); destruct r; try (kp; exact G); cbn [sem] in *; injection Hl as ->; injection Hr as ->; kp; reflexivity.
  - injection Hz as <-. destruct (isk (uconst r) 0) eqn:E1; [|destruct (isk (uconst l) 0) eqn:E2]; cbn [orb].
    + apply isk_u in E1 as [b ->]. cbn in Hr. injection Hr as <-. kp. cbn [sem]. rewrite Z.mul_0_r, wrap_id by lia. reflexivity.
    + apply isk_u in E2 as [b ->]. cbn in Hl. injection Hl as <-. kp. cbn [sem]. rewrite Z.mul_0_l, wrap_id by lia. reflexivity.
    + destruct (isk (uconst r) 1) eqn:E3; [|destruct (isk (uconst l) 1) eqn:E4].
      * apply isk_u in E3 as [b ->]. cbn in Hr. injection Hr as <-. kp. rewrite Hl, Z.mul_1_r, wrap_id by auto. reflexivity.
      * apply isk_u in E4 as [b ->]. cbn in Hl. injection Hl as <-. kp. rewrite Hr, Z.mul_1_l, wrap_id by auto. reflexivity.
      * destruct l; try (kp; exact G); destruct r; try (kp; exact G); cbn [sem] in *; injection Hl as ->; injection Hr as ->; kp; reflexivity.
  - destruct (Z.eqb_spec y 0) as [|Ny]; [discriminate Hz|]. injection Hz as <-. destruct (isk (uconst r) 0) eqn:E1; [|destruct (isk (uconst r) 1) eqn:E2].
    + apply isk_u in E1 as [b ->]. cbn in Hr. congruence.
    + apply isk_u in E2 as [b ->]. cbn in Hr. injection Hr as <-. kp. rewrite Hl, Z.div_1_r. reflexivity.
    + destruct l; try (kp; exact G). destruct r; try (kp; exact G). cbn [sem] in *. injection Hl as ->. injection Hr as ->. kp. cbn [sem]. do 2 f_equal. apply Z.mod_small.
      split; [apply Z.div_pos; lia|]. apply Z.div_lt_upper_bound; [lia|]. nia.
  - destruct (Z.eqb_spec y 0) as [|Ny]; [discriminate Hz|]. injection Hz as <-. destruct l; try (kp; exact G). destruct r; try (kp; exact G). cbn [sem] in *. injection Hl as ->. injection Hr as ->.
    destruct (Z.eqb_spec y 0); [contradiction|]. kp. cbn [sem]. do 2 f_equal. apply Z.mod_small. pose proof (Z.mod_pos_bound x y). pose proof (Z.mod_le x y). lia.
  - injection Hz as <-. assert (Z1 : keeps rho (if zexp_eqb l r then Some (ZUVal a 0) else Some (ZUBin a UXor l r)) (VU (Z.lxor x y))).
    { destruct (zexp_eqb l r) eqn:E; [|kp; exact G]. apply zexp_eqb_eq in E. subst r. rewrite Hl in Hr. injection Hr as ->. kp. rewrite Z.lxor_nilpotent. reflexivity. }
    destruct l; try exact Z1. destruct r; try exact Z1. cbn [sem] in Hl, Hr. injection Hl as ->. injection Hr as ->. kp. reflexivity.
  - injection Hz as <-. destruct (isk (uconst r) (pow2 (uw a) - 1)) eqn:E1; [|destruct (isk (uconst l) (pow2 (uw a) - 1)) eqn:E2].
    + apply isk_u in E1 as [b ->]. cbn in Hr. injection Hr as <-. kp. rewrite Hl, land_ones by auto. reflexivity.
    + apply isk_u in E2 as [b ->]. cbn in Hl. injection Hl as <-. kp. rewrite Hr, Z.land_comm, land_ones by auto. reflexivity.
    + destruct (isk (uconst r) 0) eqn:E3; [|destruct (isk (uconst l) 0) eqn:E4]; cbn [orb].
      * apply isk_u in E3 as [b ->]. cbn in Hr. injection Hr as <-. kp. rewrite Z.land_0_r. reflexivity.
      * apply isk_u in E4 as [b ->]. cbn in Hl. injection Hl as <-. kp. rewrite Z.land_0_l. reflexivity.
      * destruct l; try (kp; exact G); destruct r; try (kp; exact G); cbn [sem] in *; injection Hl as ->; injection Hr as ->; kp; reflexivity.
  - injection Hz as <-. destruct (isk (uconst r) 0) eqn:E1; [|destruct (isk (uconst l) 0) eqn:E2].
    + apply isk_u in E1 as [b ->]. cbn in Hr. injection Hr as <-. kp. rewrite Hl, Z.lor_0_r. reflexivity.
    + apply isk_u in E2 as [b ->]. cbn in Hl. injection Hl as <-. kp. rewrite Hr, Z.lor_0_l. reflexivity.
    + destruct (isk (uconst r) (pow2 (uw a) - 1)) eqn:E3; [|destruct (isk (uconst l) (pow2 (uw a) - 1)) eqn:E4]; cbn [orb].
      * apply isk_u in E3 as [b ->]. cbn in Hr. injection Hr as <-. kp. rewrite lor_ones by auto. reflexivity.
      * apply isk_u in E4 as [b ->]. cbn in Hl. injection Hl as <-. kp. rewrite Z.lor_comm, lor_ones by auto. reflexivity.
      * destruct l; try (kp; exact G); destruct r; try (kp; exact G); cbn [sem] in *; injection Hl as ->; injection Hr as ->; kp; reflexivity.
Qed.
Lemma pshl_ok : forall rho a e k x, 0 <= x < pow2 (uw a) -> sem rho e = Some (VU x) -> keeps rho (pshl a e k) (VU (wrap (uw a) (x * 2 ^ Z.of_nat k))).
Proof.
  intros rho a e k x Rx H. unfold pshl. destruct (Nat.eqb_spec k 0) as [->|Nk].
  - kp. cbn [Z.of_nat]. rewrite Z.pow_0_r, Z.mul_1_r, wrap_id by auto. exact H.
  - destruct (Nat.leb_spec (uw a) k) as [L|L].
    + kp. cbn [sem]. do 2 f_equal. unfold wrap. replace (Z.of_nat k) with (Z.of_nat (uw a) + (Z.of_nat k - Z.of_nat (uw a))) by lia.
      rewrite Z.pow_add_r by lia. replace (x * (2 ^ Z.of_nat (uw a) * 2 ^ (Z.of_nat k - Z.of_nat (uw a)))) with (x * 2 ^ (Z.of_nat k - Z.of_nat (uw a)) * 2 ^ Z.of_nat (uw a)) by ring.
      symmetry. apply Z.mod_mul. apply Z.pow_nonzero; lia.
    + assert (G : sem rho (ZShl a e k) = Some (VU (wrap (uw a) (x * 2 ^ Z.of_nat k)))) by (cbn [sem]; rewrite H; reflexivity).
      destruct e; try (kp; exact G). cbn [sem] in H. injection H as ->. kp. cbn [sem]. rewrite land_mask, Z.shiftl_mul_pow2 by lia. reflexivity.
Qed.
Lemma pshr_ok : forall rho a e k x, 0 <= x < pow2 (uw a) -> sem rho e = Some (VU x) -> keeps rho (pshr a e k) (VU (x / 2 ^ Z.of_nat k)).
Proof.
  intros rho a e k x Rx H. unfold pshr. destruct (Nat.eqb_spec k 0) as [->|Nk].
  - kp. cbn [Z.of_nat]. rewrite Z.pow_0_r, Z.div_1_r. exact H.
  - destruct (Nat.leb_spec (uw a) k) as [L|L].
    + kp. cbn [sem]. do 2 f_equal. symmetry. apply Z.div_small. pose proof (pow2_le _ _ L). unfold pow2 in *. lia.
    + assert (G : sem rho (ZShr a e k) = Some (VU (x / 2 ^ Z.of_nat k))) by (cbn [sem]; rewrite H; reflexivity).
      destruct e; try (kp; exact G). cbn [sem] in H. injection H as ->. kp. cbn [sem]. rewrite Z.shiftr_div_pow2 by lia. reflexivity.
Qed.
Lemma punot_ok : forall rho a e x, 0 <= x < pow2 (uw a) -> sem rho e = Some (VU x) -> keeps rho (punot a e) (VU (2 ^ Z.of_nat (uw a) - 1 - x)).
Proof.
  intros rho a e x Rx H. unfold punot. assert (G : sem rho (ZUNot a e) = Some (VU (2 ^ Z.of_nat (uw a) - 1 - x))) by (cbn [sem]; rewrite H; reflexivity).
  destruct e; try (kp; exact G). cbn [sem] in H. injection H as ->. kp. cbn [sem]. do 2 f_equal.
  rewrite land_mask. unfold Z.lnot. replace (Z.pred (- x)) with (pow2 (uw a) - 1 - x + (-1) * pow2 (uw a)) by lia. rewrite Z.mod_add by (pose proof (pow2_pos (uw a)); lia).
  unfold pow2 in *. apply Z.mod_small. lia.
Qed.

(** ** The whole expression *)
Lemma prop_lit : forall C e e', is_lit e = true -> prop C e = Some e' -> is_lit e' = true.
Proof.
  intros C e e' L E. destruct e; try discriminate L; cbn [prop] in E; [injection E as <-; reflexivity|]. destruct n; [|discriminate L].
  destruct (prop C e) as [x|]; [|discriminate E]. cbn [obind ppow N.eqb] in E. injection E as <-. reflexivity.
Qed.
Lemma mapO_keeps : forall rho C es vs, Forall (fun e => forall v, sem rho e = Some v -> keeps rho (prop C e) v) es -> opt_list (map (sem rho) es) = Some vs ->
  exists es', mapO (prop C) es = Some es' /\ opt_list (map (sem rho) es') = Some vs.
Proof.
  intros rho C es vs H. revert vs. induction H as [|e es He H IH]; intros vs E; cbn [map opt_list] in E; [exists []; split; [reflexivity|exact E]|].
  destruct (sem rho e) as [v|] eqn:Ev; [|discriminate E]. destruct (opt_list (map (sem rho) es)) as [ws|] eqn:Es; [|discriminate E]. injection E as <-.
  destruct (He v eq_refl) as [e' [E1 E2]]. destruct (IH ws eq_refl) as [es' [E3 E4]]. exists (e' :: es'). split.
  - change (obind (prop C e) (fun y => obind (mapO (prop C) es) (fun ys => Some (y :: ys))) = Some (e' :: es')). rewrite E1. cbn [obind]. rewrite E3. reflexivity.
  - cbn [map opt_list]. rewrite E2, E4. reflexivity.
Qed.
Lemma bind_keeps : forall rho r v (k : zexp -> option zexp) u, keeps rho r v -> (forall e, r = Some e -> sem rho e = Some v -> keeps rho (k e) u) -> keeps rho (obind r k) u.
Proof. intros rho r v k u [e [-> E]] H. cbn [obind]. apply H; auto. Qed.

Theorem prop_ok : forall e S C rho t v, has_ty S e t -> env_tr S rho -> cst_ok C rho -> sem rho e = Some v -> keeps rho (prop C e) v.
Proof.
  induction e using zexp_ind'; intros S C rho t v Ht He HC E.
  - apply keeps_intro. exact E.
  - apply keeps_intro. exact E.
  - apply keeps_intro. exact E.
  - cbn [prop]. destruct (C x) as [c|] eqn:Ec; [|apply keeps_intro; exact E]. destruct (HC x c Ec) as [_ Ev]. apply keeps_intro. rewrite Ev. exact E.
  - cbn [has_ty] in Ht. destruct Ht as [-> [H1 H2]]. cbn [sem prop] in *. destruct (sem rho e1) as [[x|b|n]|] eqn:E1; try discriminate E. destruct (sem rho e2) as [[y|b|n]|] eqn:E2; try discriminate E.
    destruct (sem_fop op x y) as [z|] eqn:Ez; [|discriminate E]. injection E as <-.
    apply (bind_keeps _ _ (VF x)); [eauto|]. intros l' _ L. apply (bind_keeps _ _ (VF y)); [eauto|]. intros r' _ R. eapply pfbin_ok; eauto.
  - cbn [has_ty] in Ht. destruct Ht as [-> H1]. cbn [sem prop] in *. destruct (sem rho e) as [[x|b|m]|] eqn:E1; try discriminate E. injection E as <-.
    apply (bind_keeps _ _ (VF x)); [eauto|]. intros l' _ L. apply ppow_ok. exact L.
  - cbn [has_ty] in Ht. destruct Ht as [-> Ht]. pose proof E as E0. cbn [sem] in E0. destruct (sem rho e1) as [v1|] eqn:E1; [|discriminate E0]. destruct (sem rho e2) as [v2|] eqn:E2; [|destruct v1; discriminate E0].
    assert (K : exists t1 t2, has_ty S e1 t1 /\ has_ty S e2 t2) by (destruct op; destruct Ht as [w Ht]; [exists PF_, PF_; auto..|exists (PU_ w), (PU_ w); tauto|exists (PU_ w), (PU_ w); tauto|exists (PU_ w), (PU_ w); tauto]).
    destruct K as [t1 [t2 [K1 K2]]]. cbn [prop]. apply (bind_keeps _ _ v1); [eauto|]. intros l' Pl L. apply (bind_keeps _ _ v2); [eauto|]. intros r' Pr R.
    assert (G : sem rho (ZCmp op l' r') = Some v).
    { cbn [sem]. rewrite L, R. destruct v1 as [x|b|n]; destruct v2 as [y|b'|m]; try discriminate E0; [|exact E0]. destruct op; try exact E0.
      - destruct (fcmp_defined e1 e2 x y) eqn:D; [|discriminate E0]. replace (fcmp_defined l' r' x y) with true; [exact E0|]. symmetry. unfold fcmp_defined in *.
        apply orb_prop in D as [D|D]; [apply orb_prop in D as [D|D]|rewrite D; apply orb_true_r].
        + rewrite (prop_lit _ _ _ D Pl). reflexivity.
        + rewrite (prop_lit _ _ _ D Pr), orb_true_r. reflexivity.
      - destruct (fcmp_defined e1 e2 x y) eqn:D; [|discriminate E0]. replace (fcmp_defined l' r' x y) with true; [exact E0|]. symmetry. unfold fcmp_defined in *.
        apply orb_prop in D as [D|D]; [apply orb_prop in D as [D|D]|rewrite D; apply orb_true_r].
        + rewrite (prop_lit _ _ _ D Pl). reflexivity.
        + rewrite (prop_lit _ _ _ D Pr), orb_true_r. reflexivity. }
    destruct v1 as [x|b|n]; destruct v2 as [y|b'|m]; try discriminate E0; [eapply pcmp_f_ok; eauto|eapply pcmp_u_ok; eauto].
  - cbn [has_ty] in Ht. destruct Ht as [-> [H1 H2]]. cbn [sem prop] in *. destruct (sem rho e1) as [[x|b|n]|] eqn:E1; try discriminate E. destruct (sem rho e2) as [[y|b'|n]|] eqn:E2; try discriminate E.
    injection E as <-. apply (bind_keeps _ _ (VB b)); [eauto|]. intros l' _ L. apply (bind_keeps _ _ (VB b')); [eauto|]. intros r' _ R. apply pbbin_ok; auto.
  - cbn [has_ty] in Ht. destruct Ht as [-> H1]. cbn [sem prop] in *. destruct (sem rho e) as [[x|b|m]|] eqn:E1; try discriminate E. injection E as <-.
    apply (bind_keeps _ _ (VB b)); [eauto|]. intros l' _ L.
    assert (G : sem rho (ZBNot l') = Some (VB (negb b))) by (cbn [sem]; rewrite L; reflexivity). unfold pbnot.
    destruct l'; try (apply keeps_intro; exact G); cbn in L; injection L as ->; apply keeps_intro; reflexivity.
  - cbn [has_ty] in Ht. destruct Ht as [-> [Hw [H1 H2]]]. cbn [sem prop] in *. destruct (sem rho e1) as [v1|] eqn:E1; [|discriminate E]. destruct (sem rho e2) as [v2|] eqn:E2; [|destruct v1; discriminate E].
    destruct (vtr_U _ _ (sem_vtr _ _ _ _ _ H1 He E1)) as [x [-> Hx]]. destruct (vtr_U _ _ (sem_vtr _ _ _ _ _ H2 He E2)) as [y [-> Hy]].
    destruct (sem_uop op (uw a) x y) as [z|] eqn:Ez; [|discriminate E]. injection E as <-.
    apply (bind_keeps _ _ (VU x)); [eauto|]. intros l' _ L. apply (bind_keeps _ _ (VU y)); [eauto|]. intros r' _ R. exact (pubin_ok _ _ _ _ _ _ _ _ Hx Hy L R Ez).
  - cbn [has_ty] in Ht. destruct Ht as [-> [Hw H1]]. cbn [sem prop] in *. destruct (sem rho e) as [v1|] eqn:E1; [|discriminate E].
    destruct (vtr_U _ _ (sem_vtr _ _ _ _ _ H1 He E1)) as [x [-> Hx]]. injection E as <-. apply (bind_keeps _ _ (VU x)); [eauto|]. intros l' _ L. apply punot_ok; auto.
  - cbn [has_ty] in Ht. destruct Ht as [-> [Hw [_ H1]]]. cbn [sem prop] in *. destruct (sem rho e) as [v1|] eqn:E1; [|discriminate E].
    destruct (vtr_U _ _ (sem_vtr _ _ _ _ _ H1 He E1)) as [x [-> Hx]]. injection E as <-. apply (bind_keeps _ _ (VU x)); [eauto|]. intros l' _ L. apply pshl_ok; auto.
  - cbn [has_ty] in Ht. destruct Ht as [-> [Hw [_ H1]]]. cbn [sem prop] in *. destruct (sem rho e) as [v1|] eqn:E1; [|discriminate E].
    destruct (vtr_U _ _ (sem_vtr _ _ _ _ _ H1 He E1)) as [x [-> Hx]]. injection E as <-. apply (bind_keeps _ _ (VU x)); [eauto|]. intros l' _ L. apply pshr_ok; auto.
  - cbn [has_ty] in Ht. destruct Ht as [_ [_ [H0 [H1 H2]]]]. cbn [sem prop] in *. destruct (sem rho e1) as [[x|b|n]|] eqn:E1; try discriminate E.
    destruct (sem rho e2) as [v1|] eqn:E2; [|discriminate E]. destruct (sem rho e3) as [v2|] eqn:E3; [|discriminate E]. injection E as <-.
    apply (bind_keeps _ _ (VB b)); [eauto|]. intros c' _ Lc. destruct (isb (bconst c') true) eqn:B1; [|destruct (isb (bconst c') false) eqn:B2].
    + apply isb_b in B1. subst c'. cbn in Lc. injection Lc as <-. eauto.
    + apply isb_b in B2. subst c'. cbn in Lc. injection Lc as <-. eauto.
    + apply (bind_keeps _ _ v1); [eauto|]. intros x' _ Lx. apply (bind_keeps _ _ v2); [eauto|]. intros y' _ Ly. apply keeps_intro.
      destruct (zexp_eqb x' y') eqn:Eq; [|cbn [sem]; rewrite Lc, Lx, Ly; reflexivity]. apply zexp_eqb_eq in Eq. subst y'. rewrite Lx in Ly. injection Ly as <-. rewrite Lx. destruct b; reflexivity.
  - cbn [has_ty] in Ht. destruct Ht as [_ [_ [_ [Hi [_ [_ Hes]]]]]]. apply has_sel_go in Hes. cbn [sem prop] in *. destruct (sem rho e) as [[x|b|n]|] eqn:E1; try discriminate E.
    destruct (opt_list (map (sem rho) es)) as [vs|] eqn:Ev; [|discriminate E]. destruct (0 <=? n) eqn:En; [|discriminate E].
    apply (bind_keeps _ _ (VU n)); [eauto|]. intros i' _ Li.
    destruct (mapO_keeps rho C es vs) as [es' [M1 M2]]; [|exact Ev|].
    { rewrite Forall_forall in *. intros e0 Hin v0 Ev0. eapply H; eauto. }
    rewrite M1. cbn [obind]. unfold psel. assert (G : sem rho (ZSel k es' i') = Some v) by (cbn [sem]; rewrite Li, M2, En; exact E).
    destruct i'; try (apply keeps_intro; exact G). cbn in Li. injection Li as ->.
    pose proof (opt_list_nth _ _ _ _ _ M2 E) as Hn. rewrite nth_error_map in Hn. destruct (nth_error es' (Z.to_nat n)) as [e'|] eqn:Ee; [|discriminate Hn]. cbn in Hn. exists e'. split; [reflexivity|]. congruence.
Qed.
End ZProp.
