(** When dead code elimination keeps failures too: programs whose definitions, once their extracted checks have passed,
    cannot fail. *)
From Coq Require Import ZArith NArith List Bool Lia.
From Verif Require Import PField IR Interp Bits Flat Zir Codegen CgBase CgExpr CgProg CgWf CgEnd UintOpt Panic DeadCode Source.
Import ListNotations.
Open Scope Z_scope.

Section NoFail.
Context {PF : PrimeField}.
(** ** No definition reached fails *)
Fixpoint nofail (o : outs_s) (s : zstmt) : Prop :=
  match s with
  | ZDef _ e => sem (os_env o) e <> None
  | ZEmbed _ _ _ => sem_stmt o s <> None
  | ZIf c a b =>
      (fix go (o : outs_s) (l : list zstmt) : Prop := match l with [] => True | s :: r => nofail o s /\ forall o', sem_stmt o s = Some o' -> go o' r end) o a /\
      forall o', sem_stmts o a = Some o' ->
      (fix go (o : outs_s) (l : list zstmt) : Prop := match l with [] => True | s :: r => nofail o s /\ forall o', sem_stmt o s = Some o' -> go o' r end) o' b
  | _ => True
  end.
Fixpoint nofails (o : outs_s) (l : list zstmt) : Prop := match l with [] => True | s :: r => nofail o s /\ forall o', sem_stmt o s = Some o' -> nofails o' r end.
Lemma nofail_if : forall o c a b, nofail o (ZIf c a b) <-> nofails o a /\ forall o', sem_stmts o a = Some o' -> nofails o' b.
Proof. reflexivity. Qed.
Lemma nofails_app : forall a b o, nofails o (a ++ b) <-> nofails o a /\ forall o', sem_stmts o a = Some o' -> nofails o' b.
Proof.
  induction a as [|s r IH]; intros b o; cbn [app nofails sem_stmts].
  - split; [intros H; split; [exact I|intros o' E; injection E as <-; auto]|intros [_ H]; auto].
  - split.
    + intros [H1 H2]. split; [split; [auto|intros o' E; apply (IH b o'); auto]|]. intros o' E. destruct (sem_stmt o s) as [o1|] eqn:Es; [|discriminate].
      apply (proj1 (IH b o1) (H2 o1 eq_refl)). auto.
    + intros [[H1 H2] H3]. split; auto. intros o' E. apply IH. split; auto. intros o2 E2. apply H3. rewrite E. auto.
Qed.
Definition dback (D : list ident -> list ident * list zstmt) (run : outs_s -> option outs_s) (nf : outs_s -> Prop) : Prop :=
  forall U U' l' (A W : ident -> Prop) o o', D U = (U', l') ->
  (forall x, W x -> In x U) -> (forall x, W x -> A x) -> (forall x, In x (usess l') -> A x) ->
  agree A o o' -> nf o -> sem_stmts o' l' <> None -> run o <> None.
Lemma dces_back_of : forall l, Forall scoped l -> Forall (fun s => dback (fun U => dce U s) (fun o => sem_stmt o s) (fun o => nofail o s)) l -> dback (fun U => dces U l) (fun o => sem_stmts o l) (fun o => nofails o l).
Proof.
  induction l as [|s r IH]; intros Sc F U U' l' A W o o' E W1 W2 HA G N R; cbn [dces sem_stmts nofails] in *; [discriminate|].
  inversion Sc as [|? ? Sc1 Sc2]; subst. inversion F as [|? ? F1 F2]; subst. destruct N as [N1 N2].
  destruct (dces U r) as [U1 r'] eqn:Er. destruct (dce U1 s) as [U2 s'] eqn:Es. injection E as <- <-. rewrite usess_app in HA. destruct (dces_mono r _ _ _ Er) as [M1 [M2 _]].
  rewrite sem_stmts_app in R.
  assert (X1 : forall x, W x \/ In x (usess r') -> In x U1) by (intros x [X|X]; auto).
  assert (X2 : forall x, W x \/ In x (usess r') -> A x) by (intros x [X|X]; auto; apply HA, in_or_app; auto).
  assert (X3 : forall x, In x (usess s') -> A x) by (intros x X; apply HA, in_or_app; auto).
  destruct (sem_stmt o s) as [o2|] eqn:E1.
  - destruct (dce_sem s Sc1 _ _ _ A (fun x => W x \/ In x (usess r')) o o' o2 Es) as [o2' [B1 B2]]; auto. rewrite B1 in R.
    apply (IH Sc2 F2 _ _ _ (fun x => A x /\ ~ In x (defs s) \/ (W x \/ In x (usess r'))) W o2 o2' Er W1); auto.
  - exfalso. apply (F1 _ _ _ A (fun x => W x \/ In x (usess r')) o o' Es); auto. destruct (sem_stmts o' s'); congruence.
Qed.
Lemma dce_back : forall s, scoped s -> dback (fun U => dce U s) (fun o => sem_stmt o s) (fun o => nofail o s).
Proof.
  intros s. induction s using zstmt_ind'; intros Hsc U U' l' A W o o' E W1 W2 HA G N R; pose proof G as [G1 _].
  - injection E as <- <-. cbn [usess flat_map uses] in HA. rewrite app_nil_r in HA. cbn [sem_stmts sem_stmt] in *. rewrite (sem_list_agree es (os_env o)) in R by auto.
    destruct (sem_list (os_env o) es); congruence.
  - cbn [nofail sem_stmt] in *. destruct (sem (os_env o) e); congruence.
  - rewrite dce_if in E. destruct (dces (evars c ++ U) a) as [U1 a'] eqn:Ea. destruct (dces U1 b) as [U2 b'] eqn:Eb. injection E as <- <-.
    cbn [scoped] in Hsc. rewrite !scoped_go in Hsc. destruct Hsc as [S1 [S2 S3]]. apply nofail_if in N as [N1 N2].
    change (usess [ZIf c a' b']) with (uses (ZIf c a' b') ++ []) in HA. rewrite app_nil_r, uses_if in HA. cbn [sem_stmts] in R. rewrite sem_if in *.
    rewrite (sem_agree c (os_env o)) in R by (intros; apply G1, HA, in_or_app; auto). destruct (sem (os_env o) c) as [[|cb|]|]; try congruence.
    assert (Fa : Forall (fun s => dback (fun U => dce U s) (fun o => sem_stmt o s) (fun o => nofail o s)) a) by (clear - H S2; induction H; auto; inversion S2; auto).
    assert (Fb : Forall (fun s => dback (fun U => dce U s) (fun o => sem_stmt o s) (fun o => nofail o s)) b) by (clear - H0 S3; induction H0; auto; inversion S3; auto).
    assert (Da : Forall (fun s => dsem (fun U => dce U s) (defs s) (fun o => sem_stmt o s)) a) by (eapply Forall_impl; [|exact S2]; apply dce_sem).
    destruct (dces_mono a _ _ _ Ea) as [Ma _]. destruct (dces_mono b _ _ _ Eb) as [_ [_ Mb]].
    assert (X1 : forall x, W x -> In x (evars c ++ U)) by (intros x X; apply in_or_app; auto).
    assert (X2 : forall x, In x (usess a') -> A x) by (intros x X; apply HA; rewrite !in_app_iff; auto).
    destruct (sem_stmts o a) as [o2|] eqn:E2.
    + destruct (dces_sem_of _ Da _ _ _ A W o o' o2 Ea) as [o2' [B1 B2]]; auto. rewrite B1 in R.
      apply (dces_back_of _ S3 Fb _ _ _ (fun x => A x /\ ~ In x (defss a) \/ W x) W o2 o2' Eb); auto.
      { intros x X. left. split; [apply HA; rewrite !in_app_iff; auto|]. intros Y. apply (S1 x Y). auto. }
      destruct (sem_stmts o2' b'); congruence.
    + exfalso. apply (dces_back_of _ S2 Fa _ _ _ A W o o' Ea); auto. destruct (sem_stmts o' a'); congruence.
  - injection E as <- <-. cbn [usess flat_map uses] in HA. rewrite app_nil_r in HA. cbn [sem_stmts sem_stmt] in *. rewrite (sem_agree e (os_env o)) in R by auto.
    destruct (sem (os_env o) e) as [[|[]|]|]; congruence.
  - exact N.
  - injection E as <- <-. cbn [usess flat_map uses] in HA. rewrite app_nil_r in HA. cbn [sem_stmts sem_stmt] in *. rewrite (sem_list_agree es (os_env o)) in R by auto.
    destruct (sem_list (os_env o) es); congruence.
Qed.
Theorem eliminate_same : forall p inputs, scoped_prog p ->
  (forall rho, bind_params (fun _ => None) (zargs p) inputs = Some rho -> nofails (mkOuts rho [] []) (zbody p)) ->
  sem_prog (eliminate p) inputs = sem_prog p inputs.
Proof.
  intros p inputs Hsc N. destruct (sem_prog p inputs) as [r|] eqn:E; [apply eliminate_sem; auto|]. unfold sem_prog, eliminate in *. cbn [zargs zbody].
  destruct (bind_params _ _ _) as [rho|]; [|reflexivity]. specialize (N rho eq_refl). destruct (dces [] (zbody p)) as [U' l'] eqn:Ed. cbn [snd].
  destruct (sem_stmts (mkOuts rho [] []) l') as [o1|] eqn:E1; [|reflexivity]. exfalso.
  assert (F : Forall (fun s => dback (fun U => dce U s) (fun o => sem_stmt o s) (fun o => nofail o s)) (zbody p)) by (eapply Forall_impl; [|exact Hsc]; apply dce_back).
  apply (dces_back_of _ Hsc F [] U' l' (fun _ => True) (fun _ => False) (mkOuts rho [] []) (mkOuts rho [] []) Ed); [intros x []|intros; exact I|intros; exact I|split; auto|exact N|congruence|].
  destruct (sem_stmts (mkOuts rho [] []) (zbody p)); congruence.
Qed.

(** ** Checked definitions do not fail *)
Definition vty (v : val) (t : ptype) : Prop := match v, t with VF _, PF_ | VB _, PB_ | VU _, PU_ _ => True | _, _ => False end.
Definition env_ty (S : senv) (rho : env_s) : Prop := forall x t, S x = Some t -> exists v, rho x = Some v /\ vty v t.
(** no select, no remainder, no comparison of two non-literal field elements *)
Fixpoint strict (e : zexp) : Prop :=
  match e with
  | ZFVal _ | ZBVal _ | ZUVal _ _ | ZId _ _ => True
  | ZFBin _ l r | ZBBin _ l r => strict l /\ strict r
  | ZUBin _ op l r => strict l /\ strict r /\ match op with URem => False | _ => True end
  | ZCmp op l r => strict l /\ strict r /\ match op with CFLt | CFLe => is_lit l || is_lit r = true | _ => True end
  | ZPow e _ | ZBNot e | ZUNot _ e | ZShl _ e _ | ZShr _ e _ => strict e
  | ZCond _ c x y => strict c /\ strict x /\ strict y
  | ZSel _ _ _ => False
  end.
Lemma checks_split : forall o a b, Forall checks a -> sem_stmts o (a ++ b) <> None -> sem_stmts o a <> None /\ sem_stmts o b <> None.
Proof.
  intros o a b Hc H. rewrite sem_stmts_app in H. destruct (sem_stmts o a) as [o1|] eqn:E; [|congruence]. rewrite (checks_pures _ Hc _ _ E) in H. split; congruence.
Qed.
Lemma vty_F : forall v, vty v PF_ -> exists x, v = VF x. Proof. intros [x|x|x] H; cbn in H; try contradiction; eauto. Qed.
Lemma vty_B : forall v, vty v PB_ -> exists x, v = VB x. Proof. intros [x|x|x] H; cbn in H; try contradiction; eauto. Qed.
Lemma vty_U : forall v w, vty v (PU_ w) -> exists x, v = VU x. Proof. intros [x|x|x] w H; cbn in H; try contradiction; eauto. Qed.
Lemma strict_ok : forall e S o t, has_ty S e t -> env_ty S (os_env o) -> strict e -> sem_stmts o (pe e) <> None -> exists v, sem (os_env o) e = Some v /\ vty v t.
Proof.
  induction e using zexp_ind'; intros S o t Ht He Hs C; cbn [has_ty strict pe sem] in *.
  - subst. eexists. split; [reflexivity|exact I].
  - subst. eexists. split; [reflexivity|exact I].
  - destruct Ht as [-> _]. eexists. split; [reflexivity|exact I].
  - destruct Ht as [_ [Ht _]]. apply He. exact Ht.
  - destruct Ht as [-> [H1 H2]]. destruct Hs as [S1 S2].
    apply checks_split in C as [C1 C]; [|apply pe_checks]. apply checks_split in C as [C2 C3]; [|apply pe_checks].
    destruct (IHe1 S o _ H1 He S1 C1) as [v1 [E1 V1]]. destruct (IHe2 S o _ H2 He S2 C2) as [v2 [E2 V2]]. apply vty_F in V1 as [x ->]. apply vty_F in V2 as [y ->].
    rewrite E1, E2. destruct op; cbn [sem_fop]; try (eexists; split; [reflexivity|exact I]).
    cbn [sem_stmts sem_stmt sem] in C3. rewrite E2 in C3. destruct (Feqb_spec y f0) as [->|N]; [exfalso; apply C3; rewrite Z.eqb_refl; reflexivity|]. eexists. split; [reflexivity|exact I].
  - destruct Ht as [-> H1]. destruct (IHe S o _ H1 He Hs C) as [v1 [E1 V1]]. apply vty_F in V1 as [x ->]. rewrite E1. eexists. split; [reflexivity|exact I].
  - destruct Ht as [-> Ht]. destruct Hs as [S1 [S2 S3]].
    apply checks_split in C as [C1 C]; [|apply pe_checks]. apply checks_split in C as [C2 _]; [|apply pe_checks].
    destruct op.
    1-3: destruct Ht as [H1 H2]; destruct (IHe1 S o _ H1 He S1 C1) as [v1 [E1 V1]]; destruct (IHe2 S o _ H2 He S2 C2) as [v2 [E2 V2]]; apply vty_F in V1 as [x ->]; apply vty_F in V2 as [y ->];
      rewrite E1, E2; unfold fcmp_defined; rewrite ?S3; cbn [orb]; eexists; (split; [reflexivity|exact I]).
    all: destruct Ht as [w [_ [H1 H2]]]; destruct (IHe1 S o _ H1 He S1 C1) as [v1 [E1 V1]]; destruct (IHe2 S o _ H2 He S2 C2) as [v2 [E2 V2]]; apply vty_U in V1 as [x ->]; apply vty_U in V2 as [y ->];
      rewrite E1, E2; eexists; (split; [reflexivity|exact I]).
  - destruct Ht as [-> [H1 H2]]. destruct Hs as [S1 S2]. apply checks_split in C as [C1 C2]; [|apply pe_checks].
    destruct (IHe1 S o _ H1 He S1 C1) as [v1 [E1 V1]]. destruct (IHe2 S o _ H2 He S2 C2) as [v2 [E2 V2]]. apply vty_B in V1 as [x ->]. apply vty_B in V2 as [y ->].
    rewrite E1, E2. eexists. split; [reflexivity|exact I].
  - destruct Ht as [-> H1]. destruct (IHe S o _ H1 He Hs C) as [v1 [E1 V1]]. apply vty_B in V1 as [x ->]. rewrite E1. eexists. split; [reflexivity|exact I].
  - destruct Ht as [-> [_ [H1 H2]]]. destruct Hs as [S1 [S2 S3]].
    apply checks_split in C as [C1 C]; [|apply pe_checks]. apply checks_split in C as [C2 C3]; [|apply pe_checks].
    destruct (IHe1 S o _ H1 He S1 C1) as [v1 [E1 V1]]. destruct (IHe2 S o _ H2 He S2 C2) as [v2 [E2 V2]]. apply vty_U in V1 as [x ->]. apply vty_U in V2 as [y ->].
    rewrite E1, E2. destruct op; cbn [sem_uop]; try (eexists; split; [reflexivity|exact I]); [|contradiction].
    cbn [sem_stmts sem_stmt sem] in C3. rewrite E2 in C3. destruct (Z.eqb_spec y 0); [exfalso; apply C3; reflexivity|]. eexists. split; [reflexivity|exact I].
  - destruct Ht as [-> [_ H1]]. destruct (IHe S o _ H1 He Hs C) as [v1 [E1 V1]]. apply vty_U in V1 as [x ->]. rewrite E1. eexists. split; [reflexivity|exact I].
  - destruct Ht as [-> [_ [_ H1]]]. destruct (IHe S o _ H1 He Hs C) as [v1 [E1 V1]]. apply vty_U in V1 as [x ->]. rewrite E1. eexists. split; [reflexivity|exact I].
  - destruct Ht as [-> [_ [_ H1]]]. destruct (IHe S o _ H1 He Hs C) as [v1 [E1 V1]]. apply vty_U in V1 as [x ->]. rewrite E1. eexists. split; [reflexivity|exact I].
  - destruct Ht as [_ [_ [H1 [H2 H3]]]]. destruct Hs as [S1 [S2 S3]]. apply checks_split in C as [C1 C2]; [|apply pe_checks].
    destruct (IHe1 S o _ H1 He S1 C1) as [v1 [E1 V1]]. apply vty_B in V1 as [b ->]. rewrite E1.
    assert (G : sem_stmts o (pe e2) <> None /\ sem_stmts o (pe e3) <> None).
    { assert (D : sem_stmts o [ZIf e1 (pe e2) (pe e3)] <> None -> sem_stmts o (pe e2) <> None /\ sem_stmts o (pe e3) <> None).
      { cbn [sem_stmts]. rewrite sem_if, E1. destruct (sem_stmts o (pe e2)) as [o1|] eqn:X; [|congruence]. rewrite (checks_pures _ (pe_checks e2) _ _ X). intros Y. split; [discriminate|]. destruct (sem_stmts o (pe e3)); congruence. }
      destruct (pe e2) as [|a l]; [destruct (pe e3) as [|a l]|]; try (apply D; exact C2). split; discriminate. }
    destruct (IHe2 S o _ H2 He S2 (proj1 G)) as [v2 [E2 V2]]. destruct (IHe3 S o _ H3 He S3 (proj2 G)) as [v3 [E3 V3]]. rewrite E2, E3. exists (if b then v2 else v3). split; [reflexivity|destruct b; auto].
  - contradiction.
Qed.
Lemma stricts_ok : forall es S o ts, Forall2 (has_ty S) es ts -> env_ty S (os_env o) -> Forall strict es -> sem_stmts o (pes es) <> None -> exists vs, sem_list (os_env o) es = Some vs /\ Forall2 vty vs ts.
Proof.
  intros es S o ts H. induction H as [|e t es ts He Hes IH]; intros Ee Hs C; [exists []; split; [reflexivity|constructor]|]. inversion Hs as [|? ? Hs1 Hs2]; subst. change (pes (e :: es)) with (pe e ++ pes es) in C.
  apply checks_split in C as [C1 C2]; [|apply pe_checks]. destruct (strict_ok e S o t He Ee Hs1 C1) as [v [E1 V1]]. destruct (IH Ee Hs2 C2) as [vs [E2 V2]].
  exists (v :: vs). split; [|constructor; auto]. unfold sem_list in *. cbn [map opt_list]. rewrite E1, E2. reflexivity.
Qed.

(** definitions with strict right-hand sides, and built-in calls that cannot fail *)
Fixpoint strict_stmt (s : zstmt) : Prop :=
  match s with
  | ZDef _ e => strict e
  | ZEmbed _ em es => Forall strict es /\ match em with EToBits _ | EFromBits _ | EBitLe _ => True | _ => False end
  | ZIf _ a b => (fix go (l : list zstmt) : Prop := match l with [] => True | s :: r => strict_stmt s /\ go r end) a /\
                 (fix go (l : list zstmt) : Prop := match l with [] => True | s :: r => strict_stmt s /\ go r end) b
  | _ => True
  end.
Lemma strict_go : forall l, (fix go (l : list zstmt) : Prop := match l with [] => True | s :: r => strict_stmt s /\ go r end) l <-> Forall strict_stmt l.
Proof. induction l as [|s r IH]; [split; auto|]. split; [intros [A B]; constructor; tauto|intros H; inversion H; tauto]. Qed.
Definition strict_prog (p : zprog) : Prop := Forall strict_stmt (zbody p).
Lemma bools_ok : forall vs n, Forall2 vty vs (repeat PB_ n) -> exists bs, bools_of vs = Some bs /\ length bs = n.
Proof.
  induction vs as [|v vs IH]; intros [|n] H; cbn [repeat] in H; inversion H as [|? ? ? ? H1 H2]; subst; [exists []; split; reflexivity|]. apply vty_B in H1 as [b ->]. destruct (IH n H2) as [bs [E L]].
  exists (b :: bs). unfold bools_of in *. cbn [map opt_list]. rewrite E. cbn. split; congruence.
Qed.
Lemma sem_embed_len : forall em vs rs, sem_embed em vs = Some rs -> length rs = length (embed_out em) /\ Forall2 vty rs (embed_out em).
Proof.
  assert (B : forall n z, Forall2 vty (map VB (bits_be n z)) (repeat PB_ n)).
  { intros n z. assert (L : length (bits_be n z) = n) by (apply bits_be_length). revert L. generalize (bits_be n z). intros l. revert n. induction l as [|b l IH]; intros [|n] L; cbn in *; try discriminate; constructor; [exact I|]. apply IH. congruence. }
  intros em vs rs H. assert (G : Forall2 vty rs (embed_out em)).
  { destruct em; cbn [sem_embed embed_out] in *.
    - destruct vs as [|[] []]; try discriminate. destruct (Feqb x f0); [injection H as <-; repeat constructor|]. destruct (Feqb x f1); [injection H as <-; repeat constructor|discriminate].
    - destruct vs as [|[] []]; try discriminate. injection H as <-. apply B.
    - destruct (bools_of vs); [|discriminate]. destruct (Nat.eqb _ _); [|discriminate]. injection H as <-. repeat constructor.
    - destruct (bools_of vs); [|discriminate]. destruct (Nat.eqb _ _); [|discriminate]. injection H as <-. repeat constructor.
    - destruct vs as [|[] []]; try discriminate. destruct (fval x <? 2 ^ Z.of_nat n); [|discriminate]. injection H as <-. apply B. }
  split; auto. clear - G. induction G; cbn; auto.
Qed.
Lemma env_upd : forall S rho x t v, env_ty S rho -> vty v t -> env_ty (supd S x t) (upd_s rho x v).
Proof. intros S rho x t v H Hv y u E. unfold supd, upd_s in *. destruct (y =? x); [injection E as <-; eauto|apply H; auto]. Qed.
Lemma env_upds : forall vs ts, Forall2 vty vs ts -> forall xs S rho, env_ty S rho -> length xs = length vs -> env_ty (supds S xs ts) (upds_s rho xs vs).
Proof.
  induction 1 as [|v t vs ts Hv _ IH]; intros xs S rho He L; destruct xs as [|x xs]; try discriminate; cbn [supds upds_s]; auto. apply IH; [apply env_upd; auto|cbn in L; congruence].
Qed.
(** with typed environments, both branches of the induction together *)
Definition nf_ok (s : zstmt) : Prop := forall S S1 o, sty_stmt S s S1 -> strict_stmt s -> env_ty S (os_env o) ->
  nofails o (px s) /\ forall o', sem_stmts o (px s) = Some o' -> env_ty S1 (os_env o').
Lemma nfs_ok : forall l, Forall nf_ok l -> forall S S1 o, sty_stmts S l S1 -> Forall strict_stmt l -> env_ty S (os_env o) ->
  nofails o (pxs l) /\ forall o', sem_stmts o (pxs l) = Some o' -> env_ty S1 (os_env o').
Proof.
  induction 1 as [|s r Hs Hr IH]; intros S S1 o T St He; inversion T; subst; [split; [exact I|]; intros o' E; injection E as <-; exact He|]. inversion St; subst.
  change (pxs (s :: r)) with (px s ++ pxs r). match goal with X : sty_stmt _ s _ |- _ => destruct (Hs _ _ o X) as [A B]; auto end. split.
  - apply nofails_app. split; auto. intros o' E. eapply IH; eauto.
  - intros o' E. rewrite sem_stmts_app in E. destruct (sem_stmts o (px s)) as [o1|]; [|discriminate]. eapply (IH _ _ o1); eauto.
Qed.
Lemma checks_nofail : forall s, checks s -> forall o, nofail o s.
Proof.
  intros s. induction s using zstmt_ind'; intros C o; try (cbn [checks] in C; contradiction); [|exact I]. cbn [checks] in C. rewrite !checks_go in C. destruct C as [C1 C2]. apply nofail_if.
  assert (G : forall l, Forall (fun s => checks s -> forall o, nofail o s) l -> Forall checks l -> forall o, nofails o l).
  { induction 1 as [|s r Hs Hr IH]; intros X o0; [exact I|]. inversion X; subst. split; auto. }
  split; [apply G; auto|]. intros. apply G; auto.
Qed.
Lemma checks_nofails : forall l, Forall checks l -> forall o, nofails o l.
Proof. induction 1 as [|s r Hs Hr IH]; intros o; [exact I|]. split; [apply checks_nofail; auto|auto]. Qed.
Lemma guard_nofail : forall o g s (P : outs_s -> Prop), Forall checks g -> (sem_stmts o g <> None -> nofail o s /\ forall o', sem_stmt o s = Some o' -> P o') ->
  nofails o (g ++ [s]) /\ forall o', sem_stmts o (g ++ [s]) = Some o' -> P o'.
Proof.
  intros o g s P Hc H. split.
  - apply nofails_app. split; [apply checks_nofails; auto|]. intros o' E. rewrite (checks_pures _ Hc _ _ E). split; [apply H; congruence|]. intros; exact I.
  - intros o' E. rewrite sem_stmts_app in E. destruct (sem_stmts o g) as [o1|] eqn:E1; [|discriminate]. rewrite (checks_pures _ Hc _ _ E1) in E. cbn [sem_stmts] in E.
    destruct H as [_ H]; [discriminate|]. destruct (sem_stmt o s); [injection E as <-; auto|discriminate].
Qed.
Lemma nf_stmt : forall s, nf_ok s.
Proof.
  intros s. induction s using zstmt_ind'; intros S S1 o T St He.
  - inversion T; subst. apply (guard_nofail o (pes es) _ (fun o' => env_ty S1 (os_env o')) (pes_checks es)). intros _. split; [exact I|]. intros o' E. cbn [sem_stmt] in E. destruct (sem_list (os_env o) es); [|discriminate]. injection E as <-. exact He.
  - inversion T; subst. match goal with X : has_ty _ _ _ |- _ => rename X into Ht end. apply (guard_nofail o (pe e) _ (fun o' => env_ty (supd S x t) (os_env o')) (pe_checks e)). intros C. destruct (strict_ok e S o t Ht He St C) as [v [E V]]. split; [cbn [nofail]; congruence|].
    intros o' X. cbn [sem_stmt] in X. rewrite E in X. injection X as <-. cbn [os_env]. apply env_upd; auto.
  - inversion T; subst. rewrite px_if. apply (guard_nofail o (pe c) _ (fun o' => env_ty S1 (os_env o')) (pe_checks c)). intros _. cbn [strict_stmt] in St. rewrite !strict_go in St. destruct St as [Sa Sb].
    match goal with X : sty_stmts S a ?s, Y : sty_stmts ?s b S1 |- _ => destruct (nfs_ok a H S s o X Sa He) as [A1 A2]; pose proof (fun o' E => nfs_ok b H0 s S1 o' Y Sb (A2 o' E)) as B end. split.
    + apply nofail_if. split; auto. intros o' E. apply B. exact E.
    + intros o' E. rewrite sem_if in E. destruct (sem (os_env o) c) as [[]|]; try discriminate. destruct (sem_stmts o (pxs a)) as [o1|] eqn:E1; [|discriminate]. apply (B o1 eq_refl). exact E.
  - inversion T; subst. apply (guard_nofail o (pe e) _ (fun o' => env_ty S1 (os_env o')) (pe_checks e)). intros _. split; [exact I|]. intros o' E. cbn [sem_stmt] in E. destruct (sem (os_env o) e) as [[|[]|]|]; try discriminate. injection E as <-. exact He.
  - inversion T; subst. match goal with X : Forall2 _ _ _ |- _ => rename X into Ht end. destruct St as [St Em]. apply (guard_nofail o (pes es) _ (fun o' => env_ty (supds S xs (embed_out em)) (os_env o')) (pes_checks es)). intros C. destruct (stricts_ok es S o _ Ht He St C) as [vs [E V]].
    assert (R : exists rs, sem_embed em vs = Some rs).
    { destruct em; try contradiction; cbn [embed_in sem_embed] in *.
      - inversion V as [|v ? vs' ? V1 V2]; subst. inversion V2; subst. apply vty_U in V1 as [n ->]. eauto.
      - destruct (bools_ok _ _ V) as [bs [B L]]. rewrite B, L, Nat.eqb_refl. eauto.
      - destruct (bools_ok _ _ V) as [bs [B L]]. rewrite B, L, Nat.eqb_refl. eauto. }
    destruct R as [rs R]. destruct (sem_embed_len _ _ _ R) as [L V2].
    assert (X : sem_stmt o (ZEmbed xs em es) = Some (mkOuts (upds_s (os_env o) xs rs) (os_ret o) (os_log o))).
    { cbn [sem_stmt]. rewrite E, R. replace (length xs) with (length rs) by congruence. rewrite Nat.eqb_refl. reflexivity. }
    split; [cbn [nofail]; rewrite X; discriminate|]. intros o' Y. rewrite X in Y. injection Y as <-. cbn [os_env]. apply env_upds; auto. congruence.
  - inversion T; subst. apply (guard_nofail o (pes es) _ (fun o' => env_ty S1 (os_env o')) (pes_checks es)). intros _. split; [exact I|]. intros o' E. cbn [sem_stmt] in E. destruct (sem_list (os_env o) es); [|discriminate]. injection E as <-. exact He.
Qed.
Lemma bind_env_ty : forall ps S rho xs rho', env_ty S rho -> bind_params rho ps xs = Some rho' -> env_ty (fold_left (fun S p => supd S (zpid p) (zptype p)) ps S) rho'.
Proof.
  induction ps as [|p ps IH]; intros S rho [|x xs] rho' He H; cbn [bind_params fold_left] in *; try discriminate; [injection H as <-; exact He|].
  destruct (val_of_input (zptype p) x) as [v|] eqn:E; [|discriminate]. eapply IH; [|exact H]. apply env_upd; auto.
  destruct (zptype p); cbn in E; [injection E as <-; exact I|destruct (Feqb x f0); [injection E as <-; exact I|destruct (Feqb x f1); [injection E as <-; exact I|discriminate]]|].
  destruct (fval x <? 2 ^ Z.of_nat w); [injection E as <-; exact I|discriminate].
Qed.
Theorem extract_eliminate_same : forall p inputs, (3 <= required_bits)%nat -> sty_prog p -> scoped_prog p -> no_pow0_prog p -> strict_prog p ->
  sem_prog (eliminate (extract_panics p)) inputs = sem_prog p inputs.
Proof.
  intros p inputs Hr [T1 [[S T2] T3]] Hs H0 Hst. rewrite eliminate_same; [apply extract_sem; auto|apply extract_scoped; auto|].
  intros rho B. unfold extract_panics. cbn [zbody zargs] in *. eapply nfs_ok; [apply Forall_forall; intros s _; apply nf_stmt|exact T2|exact Hst|]. eapply bind_env_ty; [|exact B]. intros x t E. discriminate E.
Qed.
End NoFail.
