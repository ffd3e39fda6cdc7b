(** Specification of property C21: the integers that un-reduced uint expressions stand for, and that recorded maxima
    bound them; and its proof for inputs meeting the code generator's expectations. *)
From Coq Require Import ZArith NArith List Bool Lia.
From Verif Require Import PField IR Interp Bits Flat FlatProofs Zir Codegen CgBase CgGadgets CgExpr CgStmt CgProg UintOpt UintOptProofs.
Import ListNotations.
Open Scope Z_scope.

Section Raw.
Context {PF : PrimeField}.
(** [rr] gives the integer held by every uint variable. [raw] is the integer an expression stands for before its own
    reduction, [rv] the one after it, if it is reduced. Additions, multiplications and subtractions work on un-reduced
    integers; a subtraction adds a power of two above its right operand's maximum (zokrates_codegen/src/lib.rs:1560-1600);
    all other operators give values in range. *)
Definition after_red (e : zexp) (z : Z) : Z :=
  match zkind e with KU a => match ured a with SRTrue => z mod pow2 (uw a) | _ => z end | _ => z end.
Definition uval (rho : env_s) (e : zexp) : Z := match sem rho e with Some (VU n) => n | _ => 0 end.
Fixpoint raw (rho : env_s) (rr : ident -> Z) (e : zexp) : Z :=
  let rv e := after_red e (raw rho rr e) in
  match e with
  | ZId _ x => rr x
  | ZUBin a UAdd l r => rv l + rv r
  | ZUBin a UMul l r => rv l * rv r
  | ZUBin a USub l r => rv l + pow2 (Nat.max (ubits_of r) (uw a)) - rv r
  | ZCond _ c x y => match sem rho c with Some (VB true) => rv x | _ => rv y end
  | ZSel _ es i =>
      (fix go (n : Z) (l : list zexp) : Z := match l with [] => 0 | e :: r => if n =? 0 then rv e else go (n - 1) r end) (uval rho i) es
  | _ => uval rho e
  end.
Definition rv (rho : env_s) (rr : ident -> Z) (e : zexp) : Z := after_red e (raw rho rr e).
(** the claim at one expression ... *)
Definition bounded (rho : env_s) (rr : ident -> Z) (e : zexp) : Prop :=
  match zkind e with
  | KU a => forall n, sem rho e = Some (VU n) ->
      0 <= raw rho rr e <= fval (umax a) /\ fval (umax a) < pow2 (required_bits - 1) /\ raw rho rr e mod pow2 (uw a) = n
  | _ => True
  end.
(** ... and at all its sub-expressions *)
Fixpoint bounds (rho : env_s) (rr : ident -> Z) (e : zexp) : Prop :=
  bounded rho rr e /\
  match e with
  | ZFVal _ | ZBVal _ | ZUVal _ _ | ZId _ _ => True
  | ZFBin _ l r | ZCmp _ l r | ZBBin _ l r | ZUBin _ _ l r => bounds rho rr l /\ bounds rho rr r
  | ZPow e _ | ZBNot e | ZUNot _ e | ZShl _ e _ | ZShr _ e _ => bounds rho rr e
  | ZCond _ c x y => bounds rho rr c /\ bounds rho rr x /\ bounds rho rr y
  | ZSel _ es i => bounds rho rr i /\ (fix go (l : list zexp) : Prop := match l with [] => True | e :: r => bounds rho rr e /\ go r end) es
  end.

Definition rupd (rr : ident -> Z) (x : ident) (z : Z) : ident -> Z := fun y => if y =? x then z else rr y.
(** the integers held after a statement: a definition stores the un-reduced integer *)
Fixpoint rstmt (o : outs_s) (rr : ident -> Z) (s : zstmt) : ident -> Z :=
  match s with
  | ZDef x e => rupd rr x (rv (os_env o) rr e)
  | ZEmbed [x] (EFromBits _) es => match sem_list (os_env o) es with
                                   | Some vs => match bools_of vs with Some bs => rupd rr x (bv bs) | None => rr end
                                   | None => rr
                                   end
  | ZIf c a b =>
      let go := fix go (o : outs_s) (rr : ident -> Z) (l : list zstmt) : ident -> Z :=
        match l with [] => rr | s :: r => match sem_stmt o s with Some o' => go o' (rstmt o rr s) r | None => rr end end in
      match sem_stmts o a with Some o1 => go o1 (go o rr a) b | None => rr end
  | _ => rr
  end.
Fixpoint rstmts (o : outs_s) (rr : ident -> Z) (l : list zstmt) : ident -> Z :=
  match l with [] => rr | s :: r => match sem_stmt o s with Some o' => rstmts o' (rstmt o rr s) r | None => rr end end.
(** the claim at every expression of the statements that are executed *)
Fixpoint bounds_stmt (o : outs_s) (rr : ident -> Z) (s : zstmt) : Prop :=
  match s with
  | ZReturn es | ZLog _ es | ZEmbed _ _ es => Forall (bounds (os_env o) rr) es
  | ZDef _ e | ZAssert e _ => bounds (os_env o) rr e
  | ZIf c a b =>
      let go := fix go (o : outs_s) (rr : ident -> Z) (l : list zstmt) : Prop :=
        match l with [] => True | s :: r => bounds_stmt o rr s /\ forall o', sem_stmt o s = Some o' -> go o' (rstmt o rr s) r end in
      bounds (os_env o) rr c /\ go o rr a /\ forall o1, sem_stmts o a = Some o1 -> go o1 (rstmts o rr a) b
  end.
Fixpoint bounds_stmts (o : outs_s) (rr : ident -> Z) (l : list zstmt) : Prop :=
  match l with [] => True | s :: r => bounds_stmt o rr s /\ forall o', sem_stmt o s = Some o' -> bounds_stmts o' (rstmt o rr s) r end.

(** ** Proof *)
Definition renv (rho : env_s) (rr : ident -> Z) (G : tenv) : Prop := forall x a, G x = Some (KU a) ->
  forall n, rho x = Some (VU n) -> 0 <= rr x <= ubound a /\ rr x mod pow2 (uw a) = n.
Lemma bounds_here : forall rho rr e, bounds rho rr e -> bounded rho rr e.
Proof. intros rho rr e H. destruct e; apply H. Qed.
Lemma rv_ok : forall rho rr e a n, zkind e = KU a -> bounded rho rr e -> sem rho e = Some (VU n) ->
  0 <= rv rho rr e <= ubound a /\ rv rho rr e mod pow2 (uw a) = n.
Proof.
  intros rho rr e a n K H S. unfold bounded in H. rewrite K in H. destruct (H n S) as [H1 [_ H2]]. unfold rv, after_red, ubound. rewrite K. pose proof (pow2_pos (uw a)).
  pose proof (Z.mod_pos_bound (raw rho rr e) (pow2 (uw a)) ltac:(lia)). pose proof (Z.mod_le (raw rho rr e) (pow2 (uw a)) ltac:(lia) ltac:(lia)).
  destruct (ured a); auto. split; [lia|]. rewrite Z.mod_mod by lia. auto.
Qed.
(** values are in range *)
Lemma in_range : forall rho rr e a n, zkind e = KU a -> bounded rho rr e -> sem rho e = Some (VU n) -> 0 <= n < pow2 (uw a) /\ n <= ubound a.
Proof.
  intros rho rr e a n K H S. destruct (rv_ok _ _ _ _ _ K H S) as [A B]. pose proof (pow2_pos (uw a)). rewrite <- B. split; [apply Z.mod_pos_bound; auto|].
  pose proof (Z.mod_le (rv rho rr e) (pow2 (uw a)) ltac:(lia) ltac:(lia)). lia.
Qed.
Lemma bounds_go : forall rho rr l, (fix go (l : list zexp) : Prop := match l with [] => True | e :: r => bounds rho rr e /\ go r end) l <-> Forall (bounds rho rr) l.
Proof. intros rho rr. induction l as [|e l IH]; [split; auto|]. split; [intros [A B]|intros H; inversion H]; [constructor; tauto|split; tauto]. Qed.
Lemma sel_raw : forall rho rr l (j : nat) e, nth_error l j = Some e ->
  (fix go (n : Z) (l : list zexp) : Z := match l with [] => 0 | e :: r => if n =? 0 then after_red e (raw rho rr e) else go (n - 1) r end) (Z.of_nat j) l = rv rho rr e.
Proof.
  induction l as [|x l IH]; intros [|j] e H; cbn [nth_error] in H; try discriminate.
  - injection H as ->. reflexivity.
  - destruct (Z.eqb_spec (Z.of_nat (S j)) 0); [lia|]. replace (Z.of_nat (S j) - 1) with (Z.of_nat j) by lia. apply IH. auto.
Qed.
Lemma opt_list_nth : forall A B (f : A -> option B) l vs j v, opt_list (map f l) = Some vs -> nth_error vs j = Some v -> exists a, nth_error l j = Some a /\ f a = Some v.
Proof.
  intros A B f. induction l as [|x l IH]; intros vs j v H Hj; cbn [map opt_list] in H.
  - injection H as <-. destruct j; discriminate.
  - destruct (f x) as [b|] eqn:E; [|discriminate]. destruct (opt_list (map f l)) as [bs|] eqn:E2; [|discriminate]. injection H as <-.
    destruct j as [|j]; cbn [nth_error] in *; [injection Hj as <-; eauto|]. eapply IH; eauto.
Qed.

(** where no shift has a wrong maximum, the operands of bitwise operators meet the general conditions too *)
Lemma opnd_strong : forall op G l, smax_ok l -> opw op (wt G) l -> wt G l.
Proof.
  intros op G l M W. assert (N : opnd (wt G) l -> wt G l); [|destruct op; cbn [opw] in W; auto]. clear W.
  destruct l; cbn [opnd smax_ok wt] in *; auto; intros [Ha [Hr [W [ae [K [Hw [Hre Hm]]]]]]]; (split; [auto|]); (split; [auto|]); exists ae; (split; [auto|]); (split; [auto|]);
    rewrite Hm; destruct M as [_ M]; unfold annP in M; rewrite K in M; unfold ubound; rewrite Hre, Hw;
    (assert (Hwd : wid (uw a)) by (destruct Ha as [? [? _]]; split; assumption)); pose proof (fval_range (umax ae)).
  - apply shl_bound; auto; lia.
  - apply shr_bound; auto; lia.
Qed.
Lemma smax_sel_go : forall l, (fix go (l : list zexp) : Prop := match l with [] => True | e :: r => smax_ok e /\ go r end) l <-> Forall smax_ok l.
Proof. induction l as [|e l IH]; [split; auto|]. split; [intros [A B]|intros H; inversion H]; [constructor; tauto|split; tauto]. Qed.
Lemma smax_max : forall e, smax_ok e -> max_ok e.
Proof.
  induction e using zexp_sub_ind; intros M; cbn [smax_ok max_ok] in *; try tauto.
  - destruct M as [M1 [M2 M3]].
    assert (N : forall l, (smax_ok l -> max_ok l) -> sub_ (fun e => smax_ok e -> max_ok e) l -> smax_ok l -> mopw op max_ok l).
    { intros l A B C. assert (D : match l with ZShl _ e _ | ZShr _ e _ => max_ok e | _ => max_ok l end); [|destruct op; cbn [mopw]; auto].
      destruct l; cbn [sub_ smax_ok] in *; auto; apply B, C. }
    split; [apply N; auto|]. split; [apply N; auto|exact M3].
  - destruct M as [M1 M2]. split; auto. apply smax_sel_go in M2. apply max_sel_go. rewrite Forall_forall in *. auto.
Qed.
Lemma smax_max_stmt : forall s, smax_ok_stmt s -> max_ok_stmt s.
Proof.
  fix IH 1. intros s M.
  assert (L : forall es, Forall smax_ok es -> Forall max_ok es) by (intros es X; eapply Forall_impl; [|exact X]; apply smax_max).
  assert (G : forall l, (fix go (l : list zstmt) : Prop := match l with [] => True | s :: r => smax_ok_stmt s /\ go r end) l ->
     (fix go (l : list zstmt) : Prop := match l with [] => True | s :: r => max_ok_stmt s /\ go r end) l).
  { induction l as [|x l IHl]; [auto|]. intros [A B]. split; [exact (IH x A)|exact (IHl B)]. }
  destruct s; cbn [smax_ok_stmt max_ok_stmt] in *; auto; try (apply smax_max; exact M).
  destruct M as [A [B C]]. split; [apply smax_max; exact A|]. split; apply G; assumption.
Qed.
Theorem smax_max_prog : forall p, smax_ok_prog p -> max_ok_prog p.
Proof. intros p H. eapply Forall_impl; [|exact H]. apply smax_max_stmt. Qed.

Theorem raw_bounds : forall e rho rr G, wt G e -> smax_ok e -> renv rho rr G -> bounds rho rr e.
Proof.
  induction e using zexp_ind'; intros rho rr G W M R; cbn [bounds]; cbn [wt] in W; cbn [smax_ok] in M.
  - split; [exact I|exact I].
  - split; [exact I|exact I].
  - split; [|exact I]. destruct W as [[_ [_ Hm]] [W1 W2]]. intros m Hs. cbn in *. injection Hs as <-. split; [lia|]. split; auto. apply Z.mod_small; auto.
  - split; [|exact I]. unfold bounded. cbn [zkind]. destruct k as [| |a]; auto. destruct W as [Ha [k' [Hg Hf]]]. destruct Hf as [a' [-> [Hw Hb]]]. intros n Hs. cbn [sem raw] in *.
    destruct (R _ _ Hg n Hs) as [A B]. rewrite Hw in B. split; [lia|]. split; auto. apply Ha.
  - split; [exact I|]. destruct W as [W1 [W2 _]]. destruct M. eauto.
  - split; [exact I|]. destruct W as [W1 _]. eauto.
  - split; [exact I|]. destruct W as [W1 [W2 _]]. destruct M. eauto.
  - split; [exact I|]. destruct W as [W1 [W2 _]]. destruct M. eauto.
  - split; [exact I|]. destruct W as [W1 _]. eauto.
  - destruct W as [Ha [W1 [W2 [al [ar [K1 [K2 [Hl [Hr Hop]]]]]]]]]. destruct M as [M1 [M2 _]]. apply opnd_strong in W1; auto. apply opnd_strong in W2; auto. pose proof (IHe1 _ _ _ W1 M1 R) as B1. pose proof (IHe2 _ _ _ W2 M2 R) as B2. split; [|auto].
    unfold bounded. cbn [zkind]. intros n Hs. cbn [sem] in Hs.
    destruct (sem rho e1) as [[| |x]|] eqn:S1; try discriminate. destruct (sem rho e2) as [[| |y]|] eqn:S2; try discriminate.
    destruct (sem_uop op (uw a) x y) as [z|] eqn:Ez; [|discriminate]. injection Hs as <-.
    destruct (rv_ok _ _ _ _ _ K1 (bounds_here _ _ _ B1) S1) as [V1 V2]. destruct (rv_ok _ _ _ _ _ K2 (bounds_here _ _ _ B2) S2) as [V3 V4]. rewrite Hl in V2. rewrite Hr in V4.
    destruct (in_range _ _ _ _ _ K1 (bounds_here _ _ _ B1) S1) as [X1 X2]. destruct (in_range _ _ _ _ _ K2 (bounds_here _ _ _ B2) S2) as [Y1 Y2]. rewrite Hl in X1. rewrite Hr in Y1.
    pose proof (pow2_pos (uw a)) as Hp. unfold rv in *.
    assert (Hsmall : raw rho rr (ZUBin a op e1 e2) = z -> 0 <= z < pow2 (uw a) -> pow2 (uw a) - 1 <= fval (umax a) ->
      0 <= raw rho rr (ZUBin a op e1 e2) <= fval (umax a) /\ fval (umax a) < pow2 (required_bits - 1) /\ raw rho rr (ZUBin a op e1 e2) mod pow2 (uw a) = z).
    { intros -> Hz Hm. split; [lia|]. split; [apply Ha|]. apply Z.mod_small; auto. }
    assert (Hu : uval rho (ZUBin a op e1 e2) = z) by (unfold uval; cbn [sem]; rewrite S1, S2, Ez; auto).
    destruct op; cbn [sem_uop ubin_ok] in *; cbn [raw].
    + injection Ez as <-. split; [lia|]. split; [apply Ha|]. unfold wrap. fold (pow2 (uw a)). rewrite Z.add_mod, V2, V4 by lia. reflexivity.
    + injection Ez as <-. unfold ubits_of. rewrite K2. pose proof (fbits_spec (umax ar)). pose proof (ubound_le ar).
      pose proof (pow2_le (fbits (umax ar)) (Nat.max (fbits (umax ar)) (uw a)) ltac:(lia)). split; [lia|]. split; [apply Ha|]. unfold wrap. fold (pow2 (uw a)).
      replace (pow2 (Nat.max (fbits (umax ar)) (uw a))) with (pow2 (Nat.max (fbits (umax ar)) (uw a) - uw a) * pow2 (uw a)) by (rewrite <- pow2_add; f_equal; lia).
      match goal with |- (?p + ?q * ?m - ?r) mod ?m = _ => replace (p + q * m - r) with (p - r + q * m) by ring end. rewrite Z.mod_add by lia.
      rewrite Zminus_mod, V2, V4. reflexivity.
    + injection Ez as <-. split; [split; [nia|]|]. { apply Z.le_trans with (ubound al * ubound ar); [apply Z.mul_le_mono_nonneg; lia|lia]. }
      split; [apply Ha|]. unfold wrap. fold (pow2 (uw a)). rewrite Z.mul_mod, V2, V4 by lia. reflexivity.
    + destruct (Z.eqb_spec y 0); [discriminate|]. injection Ez as <-. apply Hsmall; auto; [|apply Hop]. split; [apply Z.div_pos; lia|apply Z.div_lt_upper_bound; nia].
    + destruct (Z.eqb_spec y 0); [discriminate|]. injection Ez as <-. apply Hsmall; auto; [|apply Hop]. pose proof (Z.mod_pos_bound x y ltac:(lia)). lia.
    + injection Ez as <-. apply Hsmall; auto. apply lxor_range; auto.
    + injection Ez as <-. apply Hsmall; auto. apply land_range; auto.
    + injection Ez as <-. apply Hsmall; auto. apply lor_range; auto.
  - destruct W as [Ha [W1 [[ae [K Hw]] Hm]]]. pose proof (IHe _ _ _ W1 M R) as B. split; [|auto]. unfold bounded. cbn [zkind]. intros n Hs. cbn [raw]. unfold uval. rewrite Hs. cbn [sem] in Hs.
    destruct (sem rho e) as [[| |x]|] eqn:S; try discriminate. injection Hs as <-. destruct (in_range _ _ _ _ _ K (bounds_here _ _ _ B) S) as [X1 X2]. rewrite Hw in X1. fold (pow2 (uw a)).
    split; [lia|]. split; [apply Ha|]. apply Z.mod_small. lia.
  - destruct W as [Ha [W1 [ae [K [Hw Hm]]]]]. pose proof (IHe _ _ _ W1 (proj1 M) R) as B. split; [|auto]. unfold bounded. cbn [zkind]. intros n Hs. cbn [raw]. unfold uval. rewrite Hs. cbn [sem] in Hs.
    destruct (sem rho e) as [[| |x]|] eqn:S; try discriminate. injection Hs as <-. destruct (in_range _ _ _ _ _ K (bounds_here _ _ _ B) S) as [X1 X2]. rewrite Hw in X1. unfold wrap. fold (pow2 (uw a)) (pow2 k).
    pose proof (pow2_pos (uw a)) as Hp. pose proof (pow2_pos k) as Hpk. pose proof (shl_max x k (uw a) ltac:(lia)) as Hmx. pose proof (Z.mod_pos_bound (x * pow2 k) (pow2 (uw a)) Hp).
    pose proof (Z.mod_le (x * pow2 k) (pow2 (uw a)) ltac:(nia) Hp). split; [nia|]. split; [apply Ha|]. apply Z.mod_small. lia.
  - destruct W as [Ha [W1 [ae [K [Hw Hm]]]]]. pose proof (IHe _ _ _ W1 (proj1 M) R) as B. split; [|auto]. unfold bounded. cbn [zkind]. intros n Hs. cbn [raw]. unfold uval. rewrite Hs. cbn [sem] in Hs.
    destruct (sem rho e) as [[| |x]|] eqn:S; try discriminate. injection Hs as <-. destruct (in_range _ _ _ _ _ K (bounds_here _ _ _ B) S) as [X1 X2]. rewrite Hw in X1. fold (pow2 k).
    pose proof (pow2_pos (uw a)) as Hp. pose proof (pow2_pos k) as Hpk. assert (0 <= x / pow2 k) by (apply Z.div_pos; lia). assert (x / pow2 k <= x) by (apply Z.div_le_upper_bound; nia).
    assert (x / pow2 k <= ubound ae / pow2 k) by (apply Z.div_le_mono; lia). split; [lia|]. split; [apply Ha|]. apply Z.mod_small. lia.
  - destruct W as [Ha [W1 [W2 [W3 [Kc [F1 F2]]]]]]. destruct M as [M1 [M2 M3]]. pose proof (IHe1 _ _ _ W1 M1 R) as B1. pose proof (IHe2 _ _ _ W2 M2 R) as B2. pose proof (IHe3 _ _ _ W3 M3 R) as B3. split; [|auto].
    unfold bounded. cbn [zkind]. destruct k as [| |a]; auto. intros n Hs. cbn [sem] in Hs. destruct F1 as [a1 [K1 [Hw1 Hb1]]]. destruct F2 as [a2 [K2 [Hw2 Hb2]]].
    destruct (sem rho e1) as [[|b|]|] eqn:S1; try discriminate. destruct (sem rho e2) as [v2|] eqn:S2; try discriminate. destruct (sem rho e3) as [v3|] eqn:S3; try discriminate.
    injection Hs as Hs. cbn [raw]. rewrite S1. change (after_red e2 (raw rho rr e2)) with (rv rho rr e2). change (after_red e3 (raw rho rr e3)) with (rv rho rr e3). destruct b; subst.
    + destruct (rv_ok _ _ _ _ _ K1 (bounds_here _ _ _ B2) S2) as [V1 V2]. rewrite Hw1 in V2. split; [lia|]. split; [apply Ha|auto].
    + destruct (rv_ok _ _ _ _ _ K2 (bounds_here _ _ _ B3) S3) as [V1 V2]. rewrite Hw2 in V2. split; [lia|]. split; [apply Ha|auto].
  - destruct W as [Ha [W1 [[ai [Ki [Hwi Hri]]] [Hl W2]]]]. apply wt_sel_go in W2. destruct M as [M1 M2]. apply smax_sel_go in M2. pose proof (IHe _ _ _ W1 M1 R) as Bi.
    assert (Bs : Forall (bounds rho rr) es) by (rewrite Forall_forall in H, W2, M2; apply Forall_forall; intros x Hx; apply (H x Hx rho rr G); [apply W2; exact Hx|apply M2; exact Hx|exact R]).
    split; [|split; [auto|apply bounds_go; auto]]. unfold bounded. cbn [zkind]. destruct k as [| |a]; auto. intros n Hs. cbn [sem] in Hs.
    destruct (sem rho e) as [[| |j]|] eqn:Si; try discriminate. destruct (opt_list (map (sem rho) es)) as [vs|] eqn:Es; [|discriminate]. destruct (Z.leb_spec 0 j); [|discriminate].
    destruct (opt_list_nth _ _ _ _ _ _ _ Es Hs) as [x [Hx Sx]]. assert (Hin : In x es) by (eapply nth_error_In; eauto).
    cbn [raw]. unfold uval. rewrite Si. rewrite <- (Z2Nat.id j) by auto. rewrite (sel_raw _ _ _ _ _ Hx).
    rewrite Forall_forall in W2, Bs. destruct (W2 x Hin) as [_ [ax [Kx [Hwx Hbx]]]]. destruct (rv_ok _ _ _ _ _ Kx (bounds_here _ _ _ (Bs x Hin)) Sx) as [V1 V2]. rewrite Hwx in V2.
    split; [lia|]. split; [apply Ha|auto].
Qed.

(** ** Statements *)
Lemma bounds_if : forall o rr c a b, bounds_stmt o rr (ZIf c a b) <->
  bounds (os_env o) rr c /\ bounds_stmts o rr a /\ forall o1, sem_stmts o a = Some o1 -> bounds_stmts o1 (rstmts o rr a) b.
Proof. reflexivity. Qed.
Lemma rstmt_if : forall o rr c a b, rstmt o rr (ZIf c a b) = match sem_stmts o a with Some o1 => rstmts o1 (rstmts o rr a) b | None => rr end.
Proof. reflexivity. Qed.
(** kinds and values of variables agree *)
Definition kval (k : kind) (v : val) : Prop := match k, v with KF, VF _ | KB, VB _ | KU _, VU _ => True | _, _ => False end.
Lemma renv_upd : forall rho rr G x k v z, renv rho rr G -> (forall a n, k = KU a -> v = VU n -> 0 <= z <= ubound a /\ z mod pow2 (uw a) = n) ->
  renv (upd_s rho x v) (rupd rr x z) (tupd G x k).
Proof.
  intros rho rr G x k v z R H y a Hy n Hn. unfold tupd, upd_s, rupd in *. destruct (Z.eqb_spec y x).
  - injection Hy as ->. injection Hn as ->. auto.
  - eapply R; eauto.
Qed.
Lemma renv_other : forall rho rr G x k v, renv rho rr G -> (forall a, k <> KU a) -> renv (upd_s rho x v) rr (tupd G x k).
Proof.
  intros rho rr G x k v R H y a Hy n Hn. unfold tupd, upd_s in *. destruct (Z.eqb_spec y x).
  - injection Hy as ->. exfalso. eapply H; eauto.
  - eapply R; eauto.
Qed.
Lemma renv_others : forall n rho rr G xs vs, renv rho rr G -> length xs = length vs -> length xs = n -> renv (upds_s rho xs vs) rr (tupds G xs (repeat KB n)).
Proof.
  induction n as [|n IH]; intros rho rr G [|x xs] [|v vs] R L1 L2; try discriminate; cbn [upds_s tupds repeat]; auto.
  apply IH; auto; cbn in *; try lia. apply renv_other; auto; discriminate.
Qed.
Definition stmt_bounds (s : zstmt) : Prop := forall o rr G, wts G s -> smax_ok_stmt s -> renv (os_env o) rr G ->
  bounds_stmt o rr s /\ forall o', sem_stmt o s = Some o' -> renv (os_env o') (rstmt o rr s) (tpost G s).
Lemma stmts_bounds : forall l, Forall stmt_bounds l -> forall o rr G, wtss G l -> Forall smax_ok_stmt l -> renv (os_env o) rr G ->
  bounds_stmts o rr l /\ forall o', sem_stmts o l = Some o' -> renv (os_env o') (rstmts o rr l) (fold_left tpost l G).
Proof.
  intros l Hl. induction Hl as [|s l Hs _ IH]; intros o rr G W M R; cbn [bounds_stmts sem_stmts rstmts fold_left].
  - split; auto. intros o' E. injection E as <-. auto.
  - destruct W as [W1 W2]. inversion M as [|? ? M1 M2]; subst. destruct (Hs _ _ _ W1 M1 R) as [A B]. split.
    + split; auto. intros o' E. apply (IH o' _ (tpost G s)); auto.
    + intros o' E. destruct (sem_stmt o s) as [o1|] eqn:E1; [|discriminate]. apply (IH o1 _ (tpost G s)); auto.
Qed.
Lemma raw_stmt : forall s, stmt_bounds s.
Proof.
  assert (HL : forall es rho rr G, Forall (out_ok G) es -> Forall smax_ok es -> renv rho rr G -> Forall (bounds rho rr) es).
  { intros es rho rr G H M R. rewrite Forall_forall in *. intros e He. destruct (H e He) as [W _]. eapply raw_bounds; eauto. }
  assert (Mgo : forall l, (fix go (l : list zstmt) : Prop := match l with [] => True | s :: r => smax_ok_stmt s /\ go r end) l -> Forall smax_ok_stmt l).
  { induction l as [|x l IHl]; [auto|]. intros [A B]. constructor; auto. }
  induction s using zstmt_ind'; intros o rr G W M R; cbn [smax_ok_stmt] in M.
  - split; [apply (HL es _ _ G); auto|]. intros o' E. cbn [sem_stmt] in E. destruct (sem_list (os_env o) es); [|discriminate]. injection E as <-. auto.
  - cbn [wts] in W. pose proof (raw_bounds _ _ _ _ W M R) as B. split; [exact B|]. intros o' E. cbn [sem_stmt] in E. destruct (sem (os_env o) e) as [v|] eqn:S; [|discriminate]. injection E as <-.
    cbn [os_env rstmt tpost]. apply renv_upd; auto. intros a n K ->. eapply rv_ok; eauto using bounds_here.
  - apply wts_if in W. destruct W as [W1 [K [W2 W3]]]. destruct M as [M1 [M2 M3]]. apply Mgo in M2, M3. pose proof (raw_bounds _ _ _ _ W1 M1 R) as B. destruct (stmts_bounds _ H _ _ _ W2 M2 R) as [A1 A2]. split.
    + apply bounds_if. split; auto. split; auto. intros o1 E. apply (stmts_bounds _ H0 _ _ (fold_left tpost a G)); auto.
    + intros o' E. rewrite sem_if in E. destruct (sem (os_env o) c) as [[|b0|]|]; try discriminate. rewrite rstmt_if. destruct (sem_stmts o a) as [o1|] eqn:E1; [|discriminate].
      cbn [tpost]. apply (stmts_bounds _ H0 _ _ (fold_left tpost a G)); auto.
  - destruct W as [W K]. split; [apply (raw_bounds _ _ _ _ W M R)|]. intros o' E. cbn [sem_stmt] in E. destruct (sem (os_env o) e) as [[|[]|]|]; try discriminate. injection E as <-. auto.
  - cbn [wts] in W. destruct W as [W1 [W2 [W3 W4]]]. split; [apply (HL es _ _ G); auto|]. intros o' E. cbn [sem_stmt] in E.
    destruct (sem_list (os_env o) es) as [vs|] eqn:Ev; [|discriminate]. destruct (sem_embed em vs) as [rs|] eqn:Er; [|discriminate].
    destruct (Nat.eqb_spec (length xs) (length rs)) as [L|]; [|discriminate]. injection E as <-. cbn [os_env tpost].
    destruct em as [|n|n|n|n]; cbn [embed_kinds] in *.
    + replace (rstmt o rr (ZEmbed xs EFieldToBool es)) with rr by (cbn [rstmt]; destruct xs as [|? [|]]; auto). apply (renv_others 1); auto.
    + replace (rstmt o rr (ZEmbed xs (EToBits n) es)) with rr by (cbn [rstmt]; destruct xs as [|? [|]]; auto). rewrite repeat_length in W3. apply renv_others; auto.
    + destruct xs as [|x [|]]; try discriminate. cbn [rstmt]. rewrite Ev. cbn [sem_embed] in Er. destruct (bools_of vs) as [bs|]; [|discriminate].
      destruct (Nat.eqb_spec (length bs) n) as [Ln|]; [|discriminate]. injection Er as <-. cbn [upds_s tupds]. apply renv_upd; auto. intros a m K Hm. injection K as <-. injection Hm as <-.
      pose proof (bv_range bs) as Hb. rewrite Ln in Hb. destruct W2 as [Q1 [Q2 _]]. pose proof (mu_wid n (conj Q1 Q2)). pose proof mu_lt.
      unfold ubound, full_ann. cbn [ured umax uw]. rewrite fval_of_Z_small by lia. split; [lia|]. apply Z.mod_small; lia.
    + replace (rstmt o rr (ZEmbed xs (EBitLe n) es)) with rr by (cbn [rstmt]; destruct xs as [|? [|]]; auto). apply (renv_others 1); auto.
    + replace (rstmt o rr (ZEmbed xs (EUnpack n) es)) with rr by (cbn [rstmt]; destruct xs as [|? [|]]; auto). rewrite repeat_length in W3. apply renv_others; auto.
  - split; [apply (HL es _ _ G); auto|]. intros o' E. cbn [sem_stmt] in E. destruct (sem_list (os_env o) es); [|discriminate]. injection E as <-. auto.
Qed.
(** uint arguments are their own integers *)
Definition rparams (rho : env_s) : ident -> Z := fun x => match rho x with Some (VU n) => n | _ => 0 end.
Lemma params_renv : forall ps xs rho rho' G, renv rho (rparams rho) G -> Forall param_ok ps -> bind_params rho ps xs = Some rho' -> renv rho' (rparams rho') (ptenv G ps).
Proof.
  induction ps as [|p ps IH]; intros [|x xs] rho rho' G R Hp E; try discriminate; cbn [bind_params ptenv fold_left] in *; [injection E as <-; auto|].
  inversion Hp as [|? ? H1 H2]; subst. destruct (val_of_input (zptype p) x) as [v|] eqn:Ev; [|discriminate]. apply (IH xs _ _ _) with (3 := E); auto.
  assert (R2 : renv (upd_s rho (zpid p) v) (rupd (rparams rho) (zpid p) (match v with VU n => n | _ => 0 end)) (tupd G (zpid p) (pkind (zptype p)))).
  { apply renv_upd; auto. intros a n K ->. unfold param_ok in H1. destruct (zptype p) as [| |w]; try discriminate. cbn in K. injection K as <-. cbn in Ev.
    fold (pow2 w) in Ev. destruct (Z.ltb_spec (fval x) (pow2 w)); [|discriminate]. injection Ev as <-. pose proof (fval_range x). unfold ubound. cbn [ured umax uw].
    pose proof (mu_wid w H1). pose proof mu_lt. rewrite fval_of_Z_small by lia. split; [lia|apply Z.mod_small; lia]. }
  intros y a Hy n Hn. specialize (R2 y a Hy n Hn). unfold rparams. rewrite Hn. unfold rupd, rparams, upd_s in *. destruct (Z.eqb_spec y (zpid p)).
  - injection Hn as ->. auto.
  - rewrite Hn in R2. auto.
Qed.
Theorem raw_prog : forall p inputs rho, wtp p -> smax_ok_prog p -> bind_params (fun _ => None) (zargs p) inputs = Some rho -> bounds_stmts (mkOuts rho [] []) (rparams rho) (zbody p).
Proof.
  intros p inputs rho [H1 [H2 _]] M E. apply (stmts_bounds (zbody p)) with (G := ptenv (fun _ => None) (zargs p)); auto.
  - apply Forall_forall. intros s _. apply raw_stmt.
  - cbn [os_env]. eapply params_renv; eauto. intros x a Hx. discriminate.
Qed.
End Raw.
