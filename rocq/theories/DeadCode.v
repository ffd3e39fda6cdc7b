(** Model of dead code elimination, /repo/zokrates_analysis/src/dead_code.rs: statements are visited from the last to the
    first; a definition none of whose assignees has been seen is removed. *)
From Coq Require Import ZArith NArith List Bool Lia.
From Verif Require Import PField IR Interp Bits Flat Zir Codegen CgBase CgExpr CgProg CgWf CgEnd UintOpt Panic.
Import ListNotations.
Open Scope Z_scope.

Local Notation safe_stmt := (CgProg.safe_stmt True).
Local Notation safe_stmts := (CgProg.safe_stmts True).
Local Notation sstep := (CgProg.sstep True).
Section Dce.
Context {PF : PrimeField}.

(** l.81-84 fold_name: the identifiers met while folding an expression *)
Fixpoint evars (e : zexp) : list ident :=
  match e with
  | ZFVal _ | ZBVal _ | ZUVal _ _ => []
  | ZId _ x => [x]
  | ZFBin _ l r | ZCmp _ l r | ZBBin _ l r | ZUBin _ _ l r => evars l ++ evars r
  | ZPow e _ | ZBNot e | ZUNot _ e | ZShl _ e _ | ZShr _ e _ => evars e
  | ZCond _ c x y => evars c ++ evars x ++ evars y
  | ZSel _ es i => (fix go (l : list zexp) : list ident := match l with [] => [] | e :: r => evars e ++ go r end) es ++ evars i
  end.
Definition evarss (es : list zexp) : list ident := flat_map evars es.
Definition inb (x : ident) (U : list ident) : bool := existsb (Z.eqb x) U.
(** l.17-79. [U] is the set of used identifiers. l.60, 73: used.remove is undone by folding the assignee
    (zir/folder.rs:324-366), so the set only grows. *)
Fixpoint dce (U : list ident) (s : zstmt) : list ident * list zstmt :=
  match s with
  | ZReturn es | ZLog _ es => (evarss es ++ U, [s])
  | ZAssert e _ => (evars e ++ U, [s])
  | ZDef x e => if inb x U then (x :: evars e ++ U, [s]) else (U, [])
  | ZEmbed xs _ es => if existsb (fun x => inb x U) xs then (xs ++ evarss es ++ U, [s]) else (U, [])
  | ZIf c a b =>
      let rev_fold := fix go (U : list ident) (l : list zstmt) : list ident * list zstmt :=
        match l with [] => (U, []) | s :: r => let '(U1, r') := go U r in let '(U2, s') := dce U1 s in (U2, s' ++ r') end in
      let '(U1, a') := rev_fold (evars c ++ U) a in let '(U2, b') := rev_fold U1 b in (U2, [ZIf c a' b'])
  end.
Fixpoint dces (U : list ident) (l : list zstmt) : list ident * list zstmt :=
  match l with [] => (U, []) | s :: r => let '(U1, r') := dces U r in let '(U2, s') := dce U1 s in (U2, s' ++ r') end.
(** l.11-13 *)
Definition eliminate (p : zprog) : zprog := mkZProg (zargs p) (snd (dces [] (zbody p))) (zret p).

(** ** Proofs *)
Lemma dce_if : forall U c a b, dce U (ZIf c a b) =
  let '(U1, a') := dces (evars c ++ U) a in let '(U2, b') := dces U1 b in (U2, [ZIf c a' b']).
Proof.
  intros U c a b. cbn [dce]. set (go := fix go (U : list ident) (l : list zstmt) : list ident * list zstmt :=
        match l with [] => (U, []) | s :: r => let '(U1, r') := go U r in let '(U2, s') := dce U1 s in (U2, s' ++ r') end).
  assert (E : forall l U, go U l = dces U l) by (induction l as [|s r IH]; intros U0; cbn; auto; rewrite IH; auto).
  rewrite E. destruct (dces (evars c ++ U) a) as [U1 a']. rewrite E. reflexivity.
Qed.
Lemma inb_ok : forall x U, inb x U = true <-> In x U.
Proof. intros x U. unfold inb. rewrite existsb_exists. split; [intros [y [A B]]; apply Z.eqb_eq in B; subst; auto|intros H; exists x; split; [auto|apply Z.eqb_refl]]. Qed.
Lemma inb_no : forall x U, inb x U = false <-> ~ In x U.
Proof. intros x U. rewrite <- inb_ok. destruct (inb x U); split; congruence. Qed.
Lemma dces_app : forall a b U, dces U (a ++ b) = let '(U1, b') := dces U b in let '(U2, a') := dces U1 a in (U2, a' ++ b').
Proof.
  induction a as [|s r IH]; intros b U; cbn [app dces]; [destruct (dces U b); reflexivity|]. rewrite IH. destruct (dces U b) as [U1 b']. destruct (dces U1 r) as [U2 r']. destruct (dce U2 s) as [U3 s'].
  rewrite app_assoc. reflexivity.
Qed.

(** the identifiers read by a statement, and those it defines *)
Fixpoint uses (s : zstmt) : list ident :=
  match s with
  | ZReturn es | ZLog _ es | ZEmbed _ _ es => evarss es
  | ZDef _ e | ZAssert e _ => evars e
  | ZIf c a b => evars c ++ (fix go (l : list zstmt) : list ident := match l with [] => [] | s :: r => uses s ++ go r end) a ++
                 (fix go (l : list zstmt) : list ident := match l with [] => [] | s :: r => uses s ++ go r end) b
  end.
Definition usess (l : list zstmt) : list ident := flat_map uses l.
Lemma uses_go : forall l, (fix go (l : list zstmt) : list ident := match l with [] => [] | s :: r => uses s ++ go r end) l = usess l.
Proof. reflexivity. Qed.
Fixpoint defs (s : zstmt) : list ident :=
  match s with
  | ZReturn _ | ZLog _ _ | ZAssert _ _ => []
  | ZDef x _ => [x]
  | ZEmbed xs _ _ => xs
  | ZIf _ a b => (fix go (l : list zstmt) : list ident := match l with [] => [] | s :: r => defs s ++ go r end) a ++
                 (fix go (l : list zstmt) : list ident := match l with [] => [] | s :: r => defs s ++ go r end) b
  end.
Definition defss (l : list zstmt) : list ident := flat_map defs l.
Lemma defs_go : forall l, (fix go (l : list zstmt) : list ident := match l with [] => [] | s :: r => defs s ++ go r end) l = defss l.
Proof. reflexivity. Qed.
(** Branches are scopes: what the first branch of an if defines is not read by the second. *)
Fixpoint scoped (s : zstmt) : Prop :=
  match s with
  | ZIf _ a b => (forall x, In x (defss a) -> ~ In x (usess b)) /\
                 (fix go (l : list zstmt) : Prop := match l with [] => True | s :: r => scoped s /\ go r end) a /\
                 (fix go (l : list zstmt) : Prop := match l with [] => True | s :: r => scoped s /\ go r end) b
  | _ => True
  end.
Lemma scoped_go : forall l, (fix go (l : list zstmt) : Prop := match l with [] => True | s :: r => scoped s /\ go r end) l <-> Forall scoped l.
Proof. induction l as [|s r IH]; [split; auto|]. split; [intros [A B]; constructor; tauto|intros H; inversion H; tauto]. Qed.
Definition scoped_prog (p : zprog) : Prop := Forall scoped (zbody p).

Lemma usess_app : forall a b, usess (a ++ b) = usess a ++ usess b.
Proof. intros. apply flat_map_app. Qed.
Lemma defss_app : forall a b, defss (a ++ b) = defss a ++ defss b.
Proof. intros. apply flat_map_app. Qed.
Definition dmono (D : list ident -> list ident * list zstmt) (us : list ident) : Prop :=
  forall U U' l', D U = (U', l') -> (forall x, In x U -> In x U') /\ (forall x, In x (usess l') -> In x U') /\ (forall x, In x (usess l') -> In x us).
Lemma dces_mono_of : forall l, Forall (fun s => dmono (fun U => dce U s) (uses s)) l -> dmono (fun U => dces U l) (usess l).
Proof.
  induction 1 as [|s r Hs Hr IH]; intros U U' l' E; cbn [dces] in E; [injection E as <- <-; cbn; tauto|].
  destruct (dces U r) as [U1 r'] eqn:Er. destruct (dce U1 s) as [U2 s'] eqn:Es. injection E as <- <-. destruct (IH _ _ _ Er) as [A1 [A2 A3]]. destruct (Hs _ _ _ Es) as [B1 [B2 B3]].
  split; [auto|]. rewrite usess_app. cbn [usess flat_map]. split; intros x Hx; apply in_app_or in Hx as [Hx|Hx]; auto; apply in_or_app; auto.
Qed.
Lemma dce_mono : forall s, dmono (fun U => dce U s) (uses s).
Proof.
  intros s. induction s using zstmt_ind'; intros U U' l' E.
  - injection E as <- <-. cbn [usess flat_map uses]. rewrite app_nil_r. split; [intros; apply in_or_app; auto|]. split; [intros; apply in_or_app; auto|auto].
  - cbn [dce] in E. destruct (inb x U); injection E as <- <-; cbn [usess flat_map uses]; [|cbn; tauto]. rewrite app_nil_r.
    split; [intros; right; apply in_or_app; auto|]. split; [intros; right; apply in_or_app; auto|auto].
  - rewrite dce_if in E. destruct (dces (evars c ++ U) a) as [U1 a'] eqn:Ea. destruct (dces U1 b) as [U2 b'] eqn:Eb. injection E as <- <-.
    destruct (dces_mono_of _ H _ _ _ Ea) as [A1 [A2 A3]]. destruct (dces_mono_of _ H0 _ _ _ Eb) as [B1 [B2 B3]].
    assert (Hc : forall x, In x U \/ In x (evars c) -> In x U2) by (intros x [X|X]; apply B1, A1, in_or_app; auto).
    split; [auto|]. cbn [usess flat_map uses]. rewrite app_nil_r, !uses_go.
    split; intros x Hx; rewrite !in_app_iff in *; destruct Hx as [Hx|[Hx|Hx]]; auto.
  - injection E as <- <-. cbn [usess flat_map uses]. rewrite app_nil_r. split; [intros; apply in_or_app; auto|]. split; [intros; apply in_or_app; auto|auto].
  - cbn [dce] in E. destruct (existsb (fun x => inb x U) xs); injection E as <- <-; cbn [usess flat_map uses]; [|cbn; tauto]. rewrite app_nil_r.
    split; [intros; apply in_or_app; right; apply in_or_app; auto|]. split; [intros; apply in_or_app; right; apply in_or_app; auto|auto].
  - injection E as <- <-. cbn [usess flat_map uses]. rewrite app_nil_r. split; [intros; apply in_or_app; auto|]. split; [intros; apply in_or_app; auto|auto].
Qed.
Lemma dces_mono : forall l, dmono (fun U => dces U l) (usess l).
Proof. intros l. apply dces_mono_of. apply Forall_forall. intros. apply dce_mono. Qed.

(** ** Meaning *)
Lemma evars_go : forall l, (fix go (l : list zexp) : list ident := match l with [] => [] | e :: r => evars e ++ go r end) l = evarss l.
Proof. reflexivity. Qed.
Lemma sem_agree : forall e rho rho', (forall x, In x (evars e) -> rho' x = rho x) -> sem rho' e = sem rho e.
Proof.
  induction e using zexp_ind'; intros rho rho' A; cbn [evars sem] in *; auto;
    try (rewrite (IHe1 rho rho'), (IHe2 rho rho') by (intros; apply A, in_or_app; auto); reflexivity);
    try (rewrite (IHe rho rho') by auto; reflexivity).
  - apply A. left. auto.
  - rewrite (IHe1 rho rho'), (IHe2 rho rho'), (IHe3 rho rho') by (intros; apply A, in_or_app; auto; right; apply in_or_app; auto). reflexivity.
  - rewrite evars_go in A. rewrite (IHe rho rho') by (intros; apply A, in_or_app; auto).
    assert (E : map (sem rho') es = map (sem rho) es).
    { assert (B : forall x, In x (evarss es) -> rho' x = rho x) by (intros; apply A, in_or_app; auto). clear - H B.
      induction H as [|e l He Hl IH]; [reflexivity|]. cbn [map]. cbn [evarss flat_map] in B. rewrite (He rho rho'), IH; auto; intros; apply B, in_or_app; auto. }
    rewrite E. reflexivity.
Qed.
Lemma sem_list_agree : forall es rho rho', (forall x, In x (evarss es) -> rho' x = rho x) -> sem_list rho' es = sem_list rho es.
Proof.
  intros es rho rho' A. unfold sem_list. f_equal. induction es as [|e es IH]; [reflexivity|]. cbn [map]. cbn [evarss flat_map] in A.
  rewrite (sem_agree e rho rho'), IH; auto; intros; apply A, in_or_app; auto.
Qed.
Definition agree (A : ident -> Prop) (o o' : outs_s) : Prop := (forall x, A x -> os_env o' x = os_env o x) /\ os_ret o' = os_ret o /\ os_log o' = os_log o.
Lemma upds_s_other : forall xs vs rho x, ~ In x xs -> upds_s rho xs vs x = rho x.
Proof.
  induction xs as [|y xs IH]; intros vs rho x H; [reflexivity|]. destruct vs as [|v vs]; [reflexivity|]. cbn [upds_s]. rewrite IH by (intros X; apply H; right; auto).
  unfold upd_s. destruct (Z.eqb_spec x y); auto. exfalso. apply H. left. auto.
Qed.
Lemma upds_s_agree : forall xs vs rho rho' (A : ident -> Prop), (forall x, A x -> rho' x = rho x) -> forall x, A x -> upds_s rho' xs vs x = upds_s rho xs vs x.
Proof.
  induction xs as [|y xs IH]; intros vs rho rho' A H x Hx; [auto|]. destruct vs as [|v vs]; [auto|]. cbn [upds_s]. apply (IH vs _ _ A); auto.
  intros z Hz. unfold upd_s. destruct (z =? y); auto.
Qed.
Definition dsem (D : list ident -> list ident * list zstmt) (ds : list ident) (run : outs_s -> option outs_s) : Prop :=
  forall U U' l' (A W : ident -> Prop) o o' o1, D U = (U', l') ->
  (forall x, W x -> In x U) -> (forall x, W x -> A x) -> (forall x, In x (usess l') -> A x) ->
  agree A o o' -> run o = Some o1 ->
  exists o1', sem_stmts o' l' = Some o1' /\ agree (fun x => A x /\ ~ In x ds \/ W x) o1 o1'.
Lemma dces_sem_of : forall l, Forall (fun s => dsem (fun U => dce U s) (defs s) (fun o => sem_stmt o s)) l -> dsem (fun U => dces U l) (defss l) (fun o => sem_stmts o l).
Proof.
  induction 1 as [|s r Hs Hr IH]; intros U U' l' A W o o' o1 E W1 W2 HA G R; cbn [dces sem_stmts] in *.
  - injection E as <- <-. injection R as <-. exists o'. split; auto. destruct G as [G1 [G2 G3]]. split; [|auto]. intros x [[X _]|X]; auto.
  - destruct (dces U r) as [U1 r'] eqn:Er. destruct (dce U1 s) as [U2 s'] eqn:Es. injection E as <- <-. destruct (sem_stmt o s) as [o2|] eqn:E1; [|discriminate].
    rewrite usess_app in HA. destruct (dces_mono r _ _ _ Er) as [M1 [M2 _]].
    destruct (Hs _ _ _ A (fun x => W x \/ In x (usess r')) o o' o2 Es) as [o2' [B1 B2]]; auto.
    { intros x [X|X]; auto. } { intros x [X|X]; auto. apply HA, in_or_app. auto. } { intros x X. apply HA, in_or_app. auto. }
    destruct (IH _ _ _ (fun x => A x /\ ~ In x (defs s) \/ (W x \/ In x (usess r'))) W o2 o2' o1 Er W1) as [o1' [C1 C2]]; auto.
    exists o1'. rewrite sem_stmts_app, B1. split; auto. destruct C2 as [C2 [C3 C4]]. split; [|auto]. intros x X. apply C2. cbn [defss flat_map] in X. destruct X as [[X1 X2]|X]; auto.
    left. split; [left; split; auto; intros Y; apply X2, in_or_app; auto|]. intros Y. apply X2, in_or_app. auto.
Qed.
Lemma dce_sem : forall s, scoped s -> dsem (fun U => dce U s) (defs s) (fun o => sem_stmt o s).
Proof.
  intros s. induction s using zstmt_ind'; intros Hsc U U' l' A W o o' o1 E W1 W2 HA G R; pose proof G as [G1 [G2 G3]].
  - injection E as <- <-. cbn [usess flat_map uses] in HA. rewrite app_nil_r in HA. cbn [sem_stmts sem_stmt] in *. rewrite (sem_list_agree es (os_env o)) by auto.
    destruct (sem_list (os_env o) es) as [vs|]; [|discriminate]. injection R as <-. eexists. split; [reflexivity|]. split; cbn; auto. intros x [[X _]|X]; auto.
  - cbn [dce] in E. cbn [sem_stmt] in R. destruct (sem (os_env o) e) as [v|] eqn:Ev; [|discriminate]. injection R as <-. destruct (inb x U) eqn:Ex; injection E as <- <-.
    + cbn [usess flat_map uses] in HA. rewrite app_nil_r in HA. cbn [sem_stmts sem_stmt]. rewrite (sem_agree e (os_env o)), Ev by auto. eexists. split; [reflexivity|].
      split; cbn [os_env os_ret os_log]; auto. intros y X. unfold upd_s. destruct (y =? x); auto. apply G1. destruct X as [[X _]|X]; auto.
    + exists o'. split; [reflexivity|]. split; cbn [os_env os_ret os_log]; auto. apply inb_no in Ex. intros y X. unfold upd_s.
      destruct (Z.eqb_spec y x) as [->|N]; [|apply G1; destruct X as [[X _]|X]; auto]. exfalso. destruct X as [[_ X]|X]; [apply X; left; auto|apply Ex; auto].
  - rewrite dce_if in E. destruct (dces (evars c ++ U) a) as [U1 a'] eqn:Ea. destruct (dces U1 b) as [U2 b'] eqn:Eb. injection E as <- <-.
    cbn [scoped] in Hsc. rewrite !scoped_go in Hsc. destruct Hsc as [S1 [S2 S3]].
    cbn [usess flat_map uses] in HA. rewrite app_nil_r, !uses_go in HA. rewrite sem_if in R.
    assert (Fa : Forall (fun s => dsem (fun U => dce U s) (defs s) (fun o => sem_stmt o s)) a) by (clear - H S2; induction H; auto; inversion S2; auto).
    assert (Fb : Forall (fun s => dsem (fun U => dce U s) (defs s) (fun o => sem_stmt o s)) b) by (clear - H0 S3; induction H0; auto; inversion S3; auto).
    destruct (sem (os_env o) c) as [[|cb|]|] eqn:Ec; try discriminate. destruct (sem_stmts o a) as [o2|] eqn:E2; [|discriminate].
    destruct (dces_mono a _ _ _ Ea) as [Ma _]. destruct (dces_mono b _ _ _ Eb) as [_ [_ Mb]].
    destruct (dces_sem_of _ Fa _ _ _ A W o o' o2 Ea) as [o2' [B1 B2]]; auto.
    { intros x X. apply in_or_app. auto. } { intros x X. apply HA. apply in_or_app. right. apply in_or_app. auto. }
    destruct (dces_sem_of _ Fb _ _ _ (fun x => A x /\ ~ In x (defss a) \/ W x) W o2 o2' o1 Eb) as [o1' [C1 C2]]; auto.
    { intros x X. apply Ma. apply in_or_app. auto. }
    { intros x X. left. split; [apply HA; apply in_or_app; right; apply in_or_app; auto|]. intros Y. apply (S1 x Y). auto. }
    exists o1'. cbn [sem_stmts]. rewrite sem_if, (sem_agree c (os_env o)), Ec by (intros; apply G1, HA, in_or_app; auto). rewrite B1, C1. split; auto.
    destruct C2 as [C2 [C3 C4]]. split; auto. intros x X. apply C2. cbn [defs] in X. rewrite !defs_go in X. destruct X as [[X1 X2]|X]; auto.
    left. split; [left; split; auto; intros Y; apply X2, in_or_app; auto|]. intros Y. apply X2, in_or_app. auto.
  - injection E as <- <-. cbn [usess flat_map uses] in HA. rewrite app_nil_r in HA. cbn [sem_stmts sem_stmt] in *. rewrite (sem_agree e (os_env o)) by auto.
    destruct (sem (os_env o) e) as [[|[]|]|]; try discriminate. injection R as <-. eexists. split; [reflexivity|]. split; auto. intros x [[X _]|X]; auto.
  - cbn [dce] in E. cbn [sem_stmt] in R. destruct (sem_list (os_env o) es) as [vs|] eqn:Ev; [|discriminate]. destruct (sem_embed em vs) as [rs|] eqn:Er; [|discriminate].
    destruct (Nat.eqb (length xs) (length rs)) eqn:El; [|discriminate]. injection R as <-. destruct (existsb (fun x => inb x U) xs) eqn:Ex; injection E as <- <-.
    + cbn [usess flat_map uses] in HA. rewrite app_nil_r in HA. cbn [sem_stmts sem_stmt]. rewrite (sem_list_agree es (os_env o)), Ev, Er, El by auto. eexists. split; [reflexivity|].
      split; cbn [os_env os_ret os_log]; auto. intros y X. apply (upds_s_agree _ _ _ _ A); auto. destruct X as [[X _]|X]; auto.
    + exists o'. split; [reflexivity|]. split; cbn [os_env os_ret os_log]; auto. intros y X. assert (Ny : ~ In y xs).
      { destruct X as [[_ X]|X]; [exact X|]. intros Y. assert (Z : existsb (fun x => inb x U) xs = true) by (apply existsb_exists; exists y; split; auto; apply inb_ok; auto). congruence. }
      rewrite upds_s_other by auto. apply G1. destruct X as [[X _]|X]; auto.
  - injection E as <- <-. cbn [usess flat_map uses] in HA. rewrite app_nil_r in HA. cbn [sem_stmts sem_stmt] in *. rewrite (sem_list_agree es (os_env o)) by auto.
    destruct (sem_list (os_env o) es) as [vs|]; [|discriminate]. injection R as <-. eexists. split; [reflexivity|]. split; [|cbn; rewrite G2, G3; auto]. cbn. intros x [[X _]|X]; auto.
Qed.
Theorem eliminate_sem : forall p inputs r, scoped_prog p -> sem_prog p inputs = Some r -> sem_prog (eliminate p) inputs = Some r.
Proof.
  intros p inputs r Hsc H. unfold sem_prog, eliminate in *. cbn [zargs zbody]. destruct (bind_params _ _ _) as [rho|]; [|discriminate].
  destruct (sem_stmts (mkOuts rho [] []) (zbody p)) as [o1|] eqn:E; [|discriminate]. injection H as <-. destruct (dces [] (zbody p)) as [U' l'] eqn:Ed.
  assert (F : Forall (fun s => dsem (fun U => dce U s) (defs s) (fun o => sem_stmt o s)) (zbody p)) by (eapply Forall_impl; [|exact Hsc]; apply dce_sem).
  destruct (dces_sem_of _ F [] U' l' (fun _ => True) (fun _ => False) (mkOuts rho [] []) (mkOuts rho [] []) o1 Ed) as [o1' [A [_ [B C]]]]; [intros x []|intros; exact I|intros; exact I|split; auto|exact E|].
  cbn [snd]. rewrite A, B, C. reflexivity.
Qed.

(** ** Typing and shape *)
Lemma has_ty_agree : forall e S S' t, (forall x, In x (evars e) -> S' x = S x) -> has_ty S e t -> has_ty S' e t.
Proof.
  induction e using zexp_ind'; intros S S' t A Ht; cbn [evars has_ty] in *; auto.
  - rewrite (A x); auto. left. auto.
  - destruct Ht as [E [H1 H2]]. split; auto. split; [apply (IHe1 S)|apply (IHe2 S)]; auto; intros; apply A, in_or_app; auto.
  - destruct Ht as [E H1]. split; eauto.
  - destruct Ht as [E Ht]. split; auto. assert (A1 : forall x, In x (evars e1) -> S' x = S x) by (intros; apply A, in_or_app; auto).
    assert (A2 : forall x, In x (evars e2) -> S' x = S x) by (intros; apply A, in_or_app; auto).
    destruct op; try (destruct Ht as [H1 H2]; split; eauto; fail); (destruct Ht as [w [W [H1 H2]]]; exists w; split; auto; split; eauto).
  - destruct Ht as [E [H1 H2]]. split; auto. split; [apply (IHe1 S)|apply (IHe2 S)]; auto; intros; apply A, in_or_app; auto.
  - destruct Ht as [E H1]. split; eauto.
  - destruct Ht as [E [W [H1 H2]]]. split; auto. split; auto. split; [apply (IHe1 S)|apply (IHe2 S)]; auto; intros; apply A, in_or_app; auto.
  - destruct Ht as [E [W H1]]. split; auto. split; eauto.
  - destruct Ht as [E [W [W' H1]]]. split; auto. split; auto. split; eauto.
  - destruct Ht as [E [W [W' H1]]]. split; auto. split; auto. split; eauto.
  - destruct Ht as [E [W [H1 [H2 H3]]]]. split; auto. split; auto. split; [apply (IHe1 S)|split; [apply (IHe2 S)|apply (IHe3 S)]]; auto; intros; apply A; rewrite !in_app_iff; auto.
  - destruct Ht as [E [W [W' [H1 [H2 [H3 H4]]]]]]. split; auto. split; auto. split; auto. rewrite evars_go in A. split; [apply (IHe S); auto; intros; apply A, in_or_app; auto|]. split; auto. split; auto.
    assert (B : forall x, In x (evarss es) -> S' x = S x) by (intros; apply A, in_or_app; auto). clear - H H4 B.
    induction H as [|e l He Hl IH]; auto. destruct H4 as [X Y]. cbn [evarss flat_map] in B. split; [apply (He S); auto; intros; apply B, in_or_app; auto|apply IH; auto; intros; apply B, in_or_app; auto].
Qed.
Lemma has_tys_agree : forall es ts S S', (forall x, In x (evarss es) -> S' x = S x) -> Forall2 (has_ty S) es ts -> Forall2 (has_ty S') es ts.
Proof.
  intros es ts S S' A H. induction H as [|e t es ts He Hes IH]; [constructor|]. cbn [evarss flat_map] in A. constructor; [apply (has_ty_agree e S S'); [intros; apply A, in_or_app; auto|exact He]|apply IH; intros; apply A, in_or_app; auto].
Qed.
Definition agree_t (A : ident -> Prop) (S S' : senv) : Prop := (forall x, A x -> S' x = S x) /\ (forall x, S x = None -> S' x = None).
Definition dty (D : list ident -> list ident * list zstmt) (ds : list ident) (ty : senv -> senv -> Prop) : Prop :=
  forall U U' l' (A W : ident -> Prop) S S' S1, D U = (U', l') ->
  (forall x, W x -> In x U) -> (forall x, W x -> A x) -> (forall x, In x (usess l') -> A x) ->
  agree_t A S S' -> ty S S1 ->
  exists S1', sty_stmts S' l' S1' /\ agree_t (fun x => A x /\ ~ In x ds \/ W x) S1 S1'.
Lemma dces_ty_of : forall l, Forall (fun s => dty (fun U => dce U s) (defs s) (fun S S1 => sty_stmt S s S1)) l -> dty (fun U => dces U l) (defss l) (fun S S1 => sty_stmts S l S1).
Proof.
  induction 1 as [|s r Hs Hr IH]; intros U U' l' A W S S' S1 E W1 W2 HA G R; cbn [dces] in *.
  - injection E as <- <-. inversion R; subst. exists S'. split; [constructor|]. destruct G as [G1 G2]. split; auto. intros x [[X _]|X]; auto.
  - destruct (dces U r) as [U1 r'] eqn:Er. destruct (dce U1 s) as [U2 s'] eqn:Es. injection E as <- <-. inversion R as [|? ? ? S2 ? R1 R2]; subst.
    rewrite usess_app in HA. destruct (dces_mono r _ _ _ Er) as [M1 [M2 _]].
    destruct (Hs _ _ _ A (fun x => W x \/ In x (usess r')) S S' S2 Es) as [S2' [B1 B2]]; auto.
    { intros x [X|X]; auto. } { intros x [X|X]; auto. apply HA, in_or_app. auto. } { intros x X. apply HA, in_or_app. auto. }
    destruct (IH _ _ _ (fun x => A x /\ ~ In x (defs s) \/ (W x \/ In x (usess r'))) W S2 S2' S1 Er W1) as [S1' [C1 C2]]; auto.
    exists S1'. split; [eapply sty_app; eauto|]. destruct C2 as [C2 C3]. split; [|auto]. intros x X. apply C2. cbn [defss flat_map] in X. destruct X as [[X1 X2]|X]; auto.
    left. split; [left; split; auto; intros Y; apply X2, in_or_app; auto|]. intros Y. apply X2, in_or_app. auto.
Qed.
Lemma supds_other : forall xs ts S x, ~ In x xs -> supds S xs ts x = S x.
Proof.
  induction xs as [|y xs IH]; intros ts S x H; [reflexivity|]. destruct ts as [|t ts]; [reflexivity|]. cbn [supds]. rewrite IH by (intros X; apply H; right; auto).
  unfold supd. destruct (Z.eqb_spec x y); auto. exfalso. apply H. left. auto.
Qed.
Lemma supds_agree : forall xs ts S S' A, agree_t A S S' -> agree_t A (supds S xs ts) (supds S' xs ts).
Proof.
  induction xs as [|y xs IH]; intros ts S S' A H; [auto|]. destruct ts as [|t ts]; [auto|]. cbn [supds]. apply IH. destruct H as [H1 H2].
  split; intros z Hz; unfold supd in *; destruct (z =? y); auto.
Qed.
Lemma supds_none : forall xs ts S x, supds S xs ts x = None -> S x = None.
Proof.
  induction xs as [|y xs IH]; intros ts S x H; [auto|]. destruct ts as [|t ts]; [auto|]. cbn [supds] in H. apply IH in H. unfold supd in H. destruct (x =? y); [discriminate|auto].
Qed.
Lemma agree_sub : forall (A B : ident -> Prop) S S', agree_t A S S' -> (forall x, B x -> A x) -> agree_t B S S'.
Proof. intros A B S S' [H1 H2] H. split; auto. Qed.
Lemma dce_ty : forall s, scoped s -> dty (fun U => dce U s) (defs s) (fun S S1 => sty_stmt S s S1).
Proof.
  intros s. induction s using zstmt_ind'; intros Hsc U U' l' A W T T' T1 E W1 W2 HA G R; pose proof G as [G1 G2]; inversion R; subst.
  - injection E as <- <-. cbn [usess flat_map uses] in HA. rewrite app_nil_r in HA. exists T'. split; [|eapply agree_sub; [exact G|intros x [[X _]|X]; auto]].
    apply sty_one. econstructor. match goal with X : Forall2 (has_ty ?s) _ _ |- Forall2 (has_ty ?s') _ _ => eapply (has_tys_agree _ _ s s'); [|exact X] end; auto.
  - cbn [dce] in E. destruct (inb x U) eqn:Ex; injection E as <- <-.
    + cbn [usess flat_map uses] in HA. rewrite app_nil_r in HA. eexists. split; [apply sty_one; econstructor; match goal with X : has_ty ?s ?e _ |- has_ty ?s' ?e _ => eapply (has_ty_agree e s s'); [|exact X] end; auto|].
      split; intros y X; unfold supd in *; destruct (y =? x); auto. apply G1. destruct X as [[X _]|X]; auto.
    + exists T'. split; [constructor|]. apply inb_no in Ex. split; intros y X; unfold supd in *.
      * destruct (Z.eqb_spec y x) as [Hyx|N]; [exfalso; subst y; destruct X as [[_ X]|X]; [apply X; left; auto|apply Ex; auto]|].
        apply G1. destruct X as [[X _]|X]; auto.
      * destruct (y =? x); [discriminate|auto].
  - rewrite dce_if in E. destruct (dces (evars c ++ U) a) as [U1 a'] eqn:Ea. destruct (dces U1 b) as [U2 b'] eqn:Eb. injection E as <- <-.
    cbn [scoped] in Hsc. rewrite !scoped_go in Hsc. destruct Hsc as [S1' [S2' S3']].
    cbn [usess flat_map uses] in HA. rewrite app_nil_r, !uses_go in HA.
    assert (Fa : Forall (fun s => dty (fun U => dce U s) (defs s) (fun S S1 => sty_stmt S s S1)) a) by (clear - H S2'; induction H; auto; inversion S2'; auto).
    assert (Fb : Forall (fun s => dty (fun U => dce U s) (defs s) (fun S S1 => sty_stmt S s S1)) b) by (clear - H0 S3'; induction H0; auto; inversion S3'; auto).
    destruct (dces_mono a _ _ _ Ea) as [Ma _]. destruct (dces_mono b _ _ _ Eb) as [_ [_ Mb]].
    match goal with X : sty_stmts T a ?s1, Y : sty_stmts ?s1 b T1 |- _ => rename X into Ta; rename Y into Tb; rename s1 into T2 end.
    destruct (dces_ty_of _ Fa _ _ _ A W T T' T2 Ea) as [T2' [B1 B2]]; auto.
    { intros x X. apply in_or_app. auto. } { intros x X. apply HA. apply in_or_app. right. apply in_or_app. auto. }
    destruct (dces_ty_of _ Fb _ _ _ (fun x => A x /\ ~ In x (defss a) \/ W x) W T2 T2' T1 Eb) as [T1' [C1 C2]]; auto.
    { intros x X. apply Ma. apply in_or_app. auto. }
    { intros x X. left. split; [apply HA; apply in_or_app; right; apply in_or_app; auto|]. intros Y. apply (S1' x Y). auto. }
    exists T1'. split; [apply sty_one; econstructor; eauto; match goal with X : has_ty ?s ?e _ |- has_ty ?s' ?e _ => eapply (has_ty_agree e s s'); [|exact X] end; intros; apply G1, HA, in_or_app; auto|].
    eapply agree_sub; [exact C2|]. intros x X. cbn [defs] in X. rewrite !defs_go in X. destruct X as [[X1 X2]|X]; auto.
    left. split; [left; split; auto; intros Y; apply X2, in_or_app; auto|]. intros Y. apply X2, in_or_app. auto.
  - injection E as <- <-. cbn [usess flat_map uses] in HA. rewrite app_nil_r in HA. exists T'. split; [|eapply agree_sub; [exact G|intros x [[X _]|X]; auto]].
    apply sty_one. econstructor. match goal with X : has_ty ?s ?e _ |- has_ty ?s' ?e _ => eapply (has_ty_agree e s s'); [|exact X] end; auto.
  - cbn [dce] in E. destruct (existsb (fun x => inb x U) xs) eqn:Ex; injection E as <- <-.
    + cbn [usess flat_map uses] in HA. rewrite app_nil_r in HA. eexists. split; [apply sty_one; econstructor; eauto; [match goal with X : Forall2 (has_ty ?s) _ _ |- Forall2 (has_ty ?s') _ _ => eapply (has_tys_agree _ _ s s'); [|exact X] end; auto|]|].
      * destruct em; auto. eapply Forall_impl; [|eassumption]. auto.
      * eapply agree_sub; [apply supds_agree; exact G|]. intros y [[X _]|X]; auto.
    + exists T'. split; [constructor|]. split; [|intros y Y; apply supds_none in Y; auto]. intros y X. assert (Ny : ~ In y xs).
      { destruct X as [[_ X]|X]; [exact X|]. intros Y. assert (Z : existsb (fun x => inb x U) xs = true) by (apply existsb_exists; exists y; split; auto; apply inb_ok; auto). congruence. }
      rewrite supds_other by auto. apply G1. destruct X as [[X _]|X]; auto.
  - injection E as <- <-. cbn [usess flat_map uses] in HA. rewrite app_nil_r in HA. exists T'. split; [|eapply agree_sub; [exact G|intros x [[X _]|X]; auto]].
    apply sty_one. econstructor. match goal with X : Forall2 (has_ty ?s) _ _ |- Forall2 (has_ty ?s') _ _ => eapply (has_tys_agree _ _ s s'); [|exact X] end; auto.
Qed.
Lemma dces_last : forall ss es, exists U1, snd (dces [] (ss ++ [ZReturn es])) = snd (dces U1 ss) ++ [ZReturn es].
Proof.
  intros ss es. rewrite dces_app. cbn [dces dce]. rewrite !app_nil_r. exists (evarss es). destruct (dces (evarss es) ss) as [U2 l] eqn:E. reflexivity.
Qed.
Theorem eliminate_sty : forall p, scoped_prog p -> sty_prog p -> sty_prog (eliminate p).
Proof.
  intros p Hsc [A [[S B] [ss [es [C D]]]]]. unfold sty_prog, eliminate. cbn [zargs zbody zret]. split; [exact A|]. split.
  - assert (F : Forall (fun s => dty (fun U => dce U s) (defs s) (fun S S1 => sty_stmt S s S1)) (zbody p)) by (eapply Forall_impl; [|exact Hsc]; apply dce_ty).
    destruct (dces [] (zbody p)) as [U' l'] eqn:Ed. set (S0 := sty_params (zargs p)) in *.
    destruct (dces_ty_of _ F [] U' l' (fun _ => True) (fun _ => False) S0 S0 S Ed) as [S' [X _]]; [intros x []|intros; exact I|intros; exact I|split; auto|exact B|]. exists S'. exact X.
  - rewrite C. destruct (dces_last ss es) as [U1 E]. rewrite E. eauto.
Qed.
Lemma dces_noret_of : forall l, Forall (fun s => noret s -> forall U, Forall noret (snd (dce U s))) l -> Forall noret l -> forall U, Forall noret (snd (dces U l)).
Proof.
  induction 1 as [|s r Hs Hr IH]; intros N U; cbn [dces]; [constructor|]. inversion N; subst. specialize (IH H2 U). destruct (dces U r) as [U1 r']. specialize (Hs H1 U1). destruct (dce U1 s) as [U2 s'].
  cbn [snd] in *. apply Forall_app. auto.
Qed.
Lemma dce_noret : forall s, noret s -> forall U, Forall noret (snd (dce U s)).
Proof.
  intros s. induction s using zstmt_ind'; intros N U; try (cbn [noret] in N; contradiction).
  - cbn [dce]. destruct (inb x U); cbn; auto.
  - rewrite dce_if. cbn [noret] in N. rewrite !noret_go in N. destruct N as [N1 N2]. pose proof (dces_noret_of a H N1 (evars c ++ U)) as Qa. destruct (dces (evars c ++ U) a) as [U1 a'].
    pose proof (dces_noret_of b H0 N2 U1) as Qb. destruct (dces U1 b) as [U2 b']. cbn [snd] in *. constructor; auto. cbn [noret]. rewrite !noret_go. auto.
  - cbn. auto.
  - cbn [dce]. destruct (existsb (fun x => inb x U) xs); cbn; auto.
  - cbn. auto.
Qed.
Theorem eliminate_ends : forall p, ends_return p -> ends_return (eliminate p).
Proof.
  intros p [ss [es [C [D E]]]]. unfold ends_return, eliminate. cbn [zbody zret]. rewrite C. destruct (dces_last ss es) as [U1 X]. rewrite X. exists (snd (dces U1 ss)), es.
  split; auto. split; auto. apply dces_noret_of; auto. apply Forall_forall. intros s _. apply dce_noret.
Qed.

(** ** Elimination keeps every check of the panic extractor *)
Lemma dces_checks_of : forall l, Forall (fun s => checks s -> forall U, snd (dce U s) = [s]) l -> Forall checks l -> forall U, snd (dces U l) = l.
Proof.
  induction 1 as [|s r Hs Hr IH]; intros N U; cbn [dces]; [reflexivity|]. inversion N; subst. specialize (IH H2 U). destruct (dces U r) as [U1 r']. specialize (Hs H1 U1). destruct (dce U1 s) as [U2 s'].
  cbn [snd] in *. subst. reflexivity.
Qed.
Lemma dce_checks : forall s, checks s -> forall U, snd (dce U s) = [s].
Proof.
  intros s. induction s using zstmt_ind'; intros N U; try (cbn [checks] in N; contradiction); auto.
  rewrite dce_if. cbn [checks] in N. rewrite !checks_go in N. destruct N as [N1 N2]. pose proof (dces_checks_of a H N1 (evars c ++ U)) as Qa. destruct (dces (evars c ++ U) a) as [U1 a'].
  pose proof (dces_checks_of b H0 N2 U1) as Qb. destruct (dces U1 b) as [U2 b']. cbn [snd] in *. subst. reflexivity.
Qed.
Lemma dces_checks : forall l, Forall checks l -> forall U, snd (dces U l) = l.
Proof. intros l. apply dces_checks_of. apply Forall_forall. intros s _. apply dce_checks. Qed.
Lemma dces_guard : forall g r U, Forall checks g -> exists U1, snd (dces U (g ++ r)) = g ++ snd (dces U1 r) /\ U1 = U.
Proof.
  intros g r U H. exists U. split; auto. rewrite dces_app. destruct (dces U r) as [U1 r'] eqn:E. pose proof (dces_checks g H U1) as Q. destruct (dces U1 g) as [U2 g']. cbn [snd] in *. subst. reflexivity.
Qed.
Lemma dces_one : forall U s, snd (dces U [s]) = snd (dce U s).
Proof. intros U s. cbn [dces]. destruct (dce U s) as [U1 s']. cbn [snd]. apply app_nil_r. Qed.
Lemma dces_px_safe_of : forall l, Forall (fun s => no_cast s -> forall U o, safe_stmts o (snd (dces U (px s)))) l -> Forall no_cast l -> forall U o, safe_stmts o (snd (dces U (pxs l))).
Proof.
  induction 1 as [|s r Hs Hr IH]; intros N U o; [exact I|]. inversion N; subst. cbn [pxs flat_map]. rewrite dces_app. specialize (IH H2 U). fold (pxs r). destruct (dces U (pxs r)) as [U1 r'].
  specialize (Hs H1 U1). destruct (dces U1 (px s)) as [U2 s']. cbn [snd] in *. apply safe_app. split; auto.
Qed.
Lemma dce_px_safe : forall s, no_cast s -> forall U o, safe_stmts o (snd (dces U (px s))).
Proof.
  assert (T : forall o g s U, Forall checks g -> guarded o g (safe_stmts o (snd (dce U s))) -> safe_stmts o (snd (dces U (g ++ [s])))).
  { intros o g s U Hc G. destruct (dces_guard g [s] U Hc) as [U1 [E ->]]. rewrite E, dces_one. eapply guard_safe; [exact Hc|exact G|auto]. }
  intros s. induction s using zstmt_ind'; intros N U o; cbn [px].
  - apply T; [apply pes_checks|]. eapply guard_impl; [apply pes_guard|]. intros D. apply safe1. exact D.
  - apply T; [apply pe_checks|]. eapply guard_impl; [apply pe_guard|]. intros D. cbn [dce]. destruct (inb x U); [apply safe1; exact D|exact I].
  - cbn [no_cast] in N. rewrite !no_cast_go in N. destruct N as [N1 N2]. rewrite (px_go a), (px_go b). apply T; [apply pe_checks|]. eapply guard_impl; [apply pe_guard|]. intros D.
    rewrite dce_if. pose proof (dces_px_safe_of a H N1 (evars c ++ U)) as Qa. destruct (dces (evars c ++ U) (pxs a)) as [U1 a'].
    pose proof (dces_px_safe_of b H0 N2 U1) as Qb. destruct (dces U1 (pxs b)) as [U2 b']. cbn [snd] in *. apply safe1. apply safe_if. auto.
  - apply T; [apply pe_checks|]. eapply guard_impl; [apply pe_guard|]. intros D. apply safe1. exact D.
  - apply T; [apply pes_checks|]. eapply guard_impl; [apply pes_guard|]. intros D. cbn [dce]. destruct (existsb (fun x => inb x U) xs); [|exact I]. apply safe1. cbn [CgProg.safe_stmt]. split; [exact D|]. destruct em; auto. contradiction.
  - apply T; [apply pes_checks|]. eapply guard_impl; [apply pes_guard|]. intros D. apply safe1. exact D.
Qed.
Theorem eliminate_extract_safe : forall p inputs, no_cast_prog p -> safe_prog (eliminate (extract_panics p)) inputs.
Proof.
  intros p inputs N rho _. unfold eliminate, extract_panics. cbn [zbody]. apply dces_px_safe_of; [|exact N]. apply Forall_forall. intros s _. apply dce_px_safe.
Qed.

(** ** Extraction keeps scoping *)
Lemma pe_uses : forall e x, In x (usess (pe e)) -> In x (evars e).
Proof.
  induction e using zexp_ind'; intros y Hy; cbn [pe] in Hy; try contradiction; try (apply IHe; exact Hy).
  - cbn [evars]. rewrite !usess_app, !in_app_iff in Hy. rewrite in_app_iff. destruct Hy as [Hy|[Hy|Hy]]; auto. destruct op; try contradiction. cbn [usess flat_map uses evars] in Hy. rewrite !app_nil_r in Hy. auto.
  - cbn [evars]. rewrite !usess_app, !in_app_iff in Hy. rewrite in_app_iff. destruct Hy as [Hy|[Hy|Hy]]; auto. destruct op; try contradiction. destruct (is_val e1 || is_val e2); [contradiction|].
    cbn [usess flat_map uses evars] in Hy. rewrite ?app_nil_r, ?app_nil_l in Hy. rewrite !in_app_iff in Hy. cbn [In] in Hy. tauto.
  - cbn [evars]. rewrite !usess_app, !in_app_iff in Hy. rewrite in_app_iff. destruct Hy as [Hy|Hy]; auto.
  - cbn [evars]. rewrite !usess_app, !in_app_iff in Hy. rewrite in_app_iff. destruct Hy as [Hy|[Hy|Hy]]; auto. destruct op; try contradiction. cbn [usess flat_map uses evars] in Hy. rewrite !app_nil_r in Hy. auto.
  - cbn [evars]. rewrite usess_app, in_app_iff in Hy. rewrite !in_app_iff. destruct Hy as [Hy|Hy]; auto. assert (G : In y (usess [ZIf e1 (pe e2) (pe e3)]) -> In y (evars e1) \/ In y (evars e2) \/ In y (evars e3)).
    { cbn [usess flat_map uses]. rewrite app_nil_r, !uses_go, !in_app_iff. intros [X|[X|X]]; auto. }
    destruct (pe e2) as [|a l]; [destruct (pe e3) as [|a l]|]; auto; contradiction.
  - cbn [evars]. rewrite pe_go, usess_app, in_app_iff in Hy. rewrite evars_go, in_app_iff. destruct Hy as [Hy|Hy]; auto. left. clear - H Hy. induction H as [|e l He Hl IH]; [contradiction|]. cbn [pes evarss flat_map] in *. rewrite usess_app, in_app_iff in Hy. rewrite in_app_iff. destruct Hy as [Hy|Hy]; auto.
Qed.
Lemma pes_uses : forall es x, In x (usess (pes es)) -> In x (evarss es).
Proof.
  induction es as [|e es IH]; intros x H; [contradiction|]. cbn [pes evarss flat_map] in *. rewrite usess_app, in_app_iff in H. rewrite in_app_iff. destruct H as [H|H]; auto using pe_uses.
Qed.
Lemma uses_if : forall c a b, uses (ZIf c a b) = evars c ++ usess a ++ usess b.
Proof. reflexivity. Qed.
Lemma px_if : forall c a b, px (ZIf c a b) = pe c ++ [ZIf c (pxs a) (pxs b)].
Proof. reflexivity. Qed.
Lemma px_uses : forall s x, In x (usess (px s)) -> In x (uses s).
Proof.
  intros s. induction s using zstmt_ind'; intros y Hy.
  3: { rewrite px_if, usess_app, in_app_iff in Hy. rewrite uses_if, !in_app_iff.
    assert (G : forall l, Forall (fun s => forall x, In x (usess (px s)) -> In x (uses s)) l -> In y (usess (pxs l)) -> In y (usess l)).
    { induction 1 as [|s r Hs Hr IH]; intros X; [contradiction|]. change (pxs (s :: r)) with (px s ++ pxs r) in X. change (usess (s :: r)) with (uses s ++ usess r). rewrite usess_app, in_app_iff in X. rewrite in_app_iff. destruct X; auto. }
    destruct Hy as [Hy|Hy]; [left; apply pe_uses; exact Hy|]. change (usess [ZIf c (pxs a) (pxs b)]) with (uses (ZIf c (pxs a) (pxs b)) ++ []) in Hy. rewrite app_nil_r, uses_if, !in_app_iff in Hy.
    destruct Hy as [Hy|[Hy|Hy]]; auto. }
  all: cbn [px] in Hy; rewrite usess_app, in_app_iff in Hy; cbn [usess flat_map uses] in Hy; rewrite app_nil_r in Hy; cbn [uses]; (destruct Hy as [Hy|Hy]; [first [apply pe_uses|apply pes_uses]; exact Hy|exact Hy]).
Qed.
Lemma defs_if : forall c a b, defs (ZIf c a b) = defss a ++ defss b.
Proof. reflexivity. Qed.
Lemma checks_defs : forall s, checks s -> defs s = [].
Proof.
  intros s. induction s using zstmt_ind'; intros N; try (cbn [checks] in N; contradiction); auto. cbn [checks] in N. rewrite !checks_go in N. destruct N as [N1 N2]. rewrite defs_if.
  assert (G : forall l, Forall (fun s => checks s -> defs s = []) l -> Forall checks l -> defss l = []).
  { induction 1 as [|s r Hs Hr IH]; intros X; [reflexivity|]. inversion X; subst. cbn [defss flat_map]. rewrite Hs by auto. apply IH. auto. }
  rewrite (G a), (G b); auto.
Qed.
Lemma checks_defss : forall l, Forall checks l -> defss l = [].
Proof. induction 1 as [|s r Hs Hr IH]; [reflexivity|]. cbn [defss flat_map]. rewrite checks_defs by auto. exact IH. Qed.
Lemma px_defs : forall s, defss (px s) = defs s.
Proof.
  intros s. induction s using zstmt_ind'.
  3: { rewrite px_if, defss_app, (checks_defss _ (pe_checks _)). change (defss [ZIf c (pxs a) (pxs b)]) with (defs (ZIf c (pxs a) (pxs b)) ++ []). rewrite app_nil_l, app_nil_r, !defs_if.
    assert (G : forall l, Forall (fun s => defss (px s) = defs s) l -> defss (pxs l) = defss l).
    { induction 1 as [|s r Hs Hr IH]; [reflexivity|]. change (pxs (s :: r)) with (px s ++ pxs r). rewrite defss_app, Hs, IH. reflexivity. }
    rewrite (G a), (G b); auto. }
  all: cbn [px]; rewrite defss_app, ?(checks_defss _ (pe_checks _)), ?(checks_defss _ (pes_checks _)), app_nil_l; cbn [defss flat_map]; rewrite app_nil_r; reflexivity.
Qed.
Lemma pxs_defs : forall l, defss (pxs l) = defss l.
Proof. induction l as [|s r IH]; [reflexivity|]. cbn [pxs flat_map]. fold (pxs r). rewrite defss_app, px_defs, IH. reflexivity. Qed.
Lemma pxs_uses : forall l x, In x (usess (pxs l)) -> In x (usess l).
Proof. induction l as [|s r IH]; intros x H; [contradiction|]. cbn [pxs flat_map] in H. fold (pxs r) in H. rewrite usess_app, in_app_iff in H. cbn [usess flat_map]. rewrite in_app_iff. destruct H; auto using px_uses. Qed.
Lemma checks_scoped : forall s, checks s -> scoped s.
Proof.
  intros s. induction s using zstmt_ind'; intros N; try (cbn [checks] in N; contradiction); cbn [scoped]; auto. cbn [checks] in N. rewrite !checks_go in N. destruct N as [N1 N2]. rewrite !scoped_go.
  rewrite (checks_defss a) by auto. split; [intros x []|]. split; [clear - H N1; induction H; auto; inversion N1; auto|clear - H0 N2; induction H0; auto; inversion N2; auto].
Qed.
Lemma px_scoped : forall s, scoped s -> Forall scoped (px s).
Proof.
  intros s. induction s using zstmt_ind'; intros N; cbn [px]; rewrite Forall_app; (split; [eapply Forall_impl; [apply checks_scoped|]; first [apply pe_checks|apply pes_checks]|]); auto.
  constructor; auto. cbn [scoped] in *. rewrite (px_go a), (px_go b). rewrite !scoped_go in *. destruct N as [N0 [N1 N2]]. rewrite pxs_defs. split; [intros x X Y; apply pxs_uses in Y; exact (N0 x X Y)|]. unfold pxs. rewrite !Forall_flat_map.
  split; [clear - H N1; induction H; auto; inversion N1; auto|clear - H0 N2; induction H0; auto; inversion N2; auto].
Qed.
Theorem extract_scoped : forall p, scoped_prog p -> scoped_prog (extract_panics p).
Proof. intros p H. unfold scoped_prog, extract_panics, pxs. cbn [zbody]. rewrite Forall_flat_map. eapply Forall_impl; [|exact H]. apply px_scoped. Qed.
End Dce.
