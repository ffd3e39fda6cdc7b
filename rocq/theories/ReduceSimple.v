(** Reduced statements other than loops. *)
From Coq Require Import String Ascii.
From Coq Require Import ZArith NArith List Bool Lia.
From Verif Require Import PField Interp Bits Zir CgProg UintOpt Str Abi Typed Flatten FlattenOps FlattenSim FlattenRun Writes Redefine WritesVal WritesExp ZPropStmt Src SrcTy TProp TPropOk TPropArr TPropOps TPropExp TPropStmt TPropProg Reduce ReduceRen ReduceExp ReduceStmt.
Import ListNotations.
Open Scope Z_scope.

Section ReduceSimple.
Context {PF : PrimeField}.
Variable funs : ftable.
Hypothesis TO : table_ok funs.
Variable ptable : Prop.
Notation dyn := (dyn funs).

(** calls of a statement in plain positions *)
Fixpoint splain (s : sstmt) : bool :=
  match s with
  | SDef _ _ e | SAssert e _ => plain e
  | SSet _ _ p e => plain e && forallb acc_plain p
  | SLog _ args | SEmb _ _ _ args => forallb plain args
  | SFor _ a b body => plain a && plain b && forallb splain body
  end.
Definition simple_out (L : nat) (C : consts) (G : rctx) (s : sstmt) (S1 : rctx) (L' : nat) (C' : consts) (b : list sstmt) (ex : Prop) : Prop :=
  exists G', (L <= L')%nat /\ Inv L' C' G' /\ xstys G b G' /\ forallb snocalls b = true /\ (forall y, (rframe y <= L)%nat -> sdef s <> Some y -> C' y = C y /\ G' y = G y) /\ (forall y, (rframe y <= L)%nat -> cover C' G' y = S1 y) /\
  forall k rho, rok G rho ->
  (forall lg rho1, sexec (scall funs k) (ov C rho) s = Ok (lg, rho1) -> exists lgb rho', sexecs nocall rho b = Ok (lgb, rho') /\ (forall y, (rframe y <= L)%nat -> ov C' rho' y = rho1 y) /\ sublog lgb lg /\ (ex -> lgb = lg) /\ (forall y, (rframe y <= L)%nat -> sdef s <> Some y -> rho' y = rho y)) /\
  (ex -> sexec (scall funs k) (ov C rho) s = Failed -> sexecs nocall rho b = Failed).
Lemma tail_ok : forall L C G L2 C2 G2 buf s s3 S1 S3 C3 l3 (ex : Prop), Out L C G L2 C2 G2 buf -> pstmt C2 s3 = Some (C3, l3) -> is_for s3 = false -> snocalls s3 = true -> xsty (cover C2 G2) s3 S3 -> sdef s3 = sdef s -> (forall x, sdef s = Some x -> (rframe x <= L)%nat) -> (forall y, (rframe y <= L)%nat -> S3 y = S1 y) ->
  (forall k rho, rok G rho ->
    (forall lg rho1, sexec (scall funs k) (ov C rho) s = Ok (lg, rho1) -> exists lgb rho2 lg3 r3, sexecs nocall rho buf = Ok (lgb, rho2) /\ (forall y, (rframe y <= L)%nat -> rho2 y = rho y) /\ sexec nocall (ov C2 rho2) s3 = Ok (lg3, r3) /\ (forall y, (rframe y <= L)%nat -> r3 y = rho1 y) /\ sublog (lgb ++ lg3) lg /\ (ex -> lgb ++ lg3 = lg)) /\
    (ex -> sexec (scall funs k) (ov C rho) s = Failed -> sexecs nocall rho buf = Failed \/ exists lgb rho2, sexecs nocall rho buf = Ok (lgb, rho2) /\ sexec nocall (ov C2 rho2) s3 = Failed)) ->
  simple_out L C G s S1 L2 C3 (buf ++ l3) ex.
Proof.
  intros L C G L2 C2 G2 buf s s3 S1 S3 C3 l3 ex O P F N X D Fx Q H. pose proof O as [LL [[K2 [N2 B2]] [Xb [Kp Nb]]]]. destruct (pstmt_ok C2 G2 s3 S3 C3 l3 K2 N2 X F P) as [G3 [X3 [K3 [N3 [Q3 [So [_ [Sim Fl]]]]]]]].
  exists G3. split; [exact LL|]. split; [split; [exact K3|]; split; [exact N3|]; intros y Y; destruct (So y) as [A B]; [rewrite D; intros E; specialize (Fx y E); lia|]; rewrite A, B; apply B2, Y|]. split; [exact (app_ty _ _ _ _ _ Xb X3)|]. split; [rewrite forallb_app, Nb; exact (pstmt_nocalls _ _ _ _ K2 N P)|]. split; [|split].
  - intros y Y Ny. destruct (So y) as [A B]; [rewrite D; exact Ny|]. destruct (Kp y Y) as [A' B']. split; congruence.
  - intros y Y. rewrite (Q3 y). apply Q, Y.
  - intros k rho R. destruct (H k rho R) as [P1 F1]. split.
    + intros lg rho1 E. destruct (P1 _ _ E) as [lgb [rho2 [lg3 [r3 [E2 [R2 [E3 [R3 [Sb Tb]]]]]]]]]. pose proof (rok_out _ _ _ _ _ _ _ _ _ _ O R E2) as Rk. destruct (Sim nocall rho2 nocall_ok Rk _ _ E3) as [lg' [rho' [E4 [_ [T4 [R4 O4]]]]]]. exists (lgb ++ lg'), rho'. rewrite (T4 nocall_silent) in *. split; [exact (run_app _ _ _ _ _ _ _ _ E2 E4)|]. split; [intros y Y; rewrite (R4 y); apply R3, Y|]. split; [exact Sb|]. split; [exact Tb|]. intros y Y Ny. rewrite O4 by (rewrite D; exact Ny). apply R2, Y.
    + intros Hx E. destruct (F1 Hx E) as [E2|[lgb [rho2 [E2 E3]]]]; [exact (fail_left _ _ _ _ E2)|]. pose proof (rok_out _ _ _ _ _ _ _ _ _ _ O R E2) as Rk. exact (fail_right _ _ _ _ _ _ E2 (Fl nocall rho2 nocall_silent nocall_ok Rk E3)).
Qed.
Lemma away_ok : forall L C G s S1 C' (ex : Prop), Inv L C G -> pstmt C s = Some (C', []) -> is_for s = false -> xsty (cover C G) s S1 -> (forall x, sdef s = Some x -> (rframe x <= L)%nat) ->
  (ex -> forall k rho, rok G rho -> mute (sexec (scall funs k) (ov C rho) s)) -> simple_out L C G s S1 L C' [] ex.
Proof.
  intros L C G s S1 C' ex [K [N B]] P F X Fx M. destruct (pstmt_ok C G s S1 C' [] K N X F P) as [G3 [X3 [K3 [N3 [Q3 [So [_ [Sim _]]]]]]]]. exists G3. split; [lia|]. split; [split; [exact K3|]; split; [exact N3|]; intros y Y; destruct (So y) as [A A']; [intros E; specialize (Fx y E); lia|]; rewrite A, A'; apply B, Y|]. split; [exact X3|]. split; [reflexivity|]. split; [intros y _ Ny; exact (So y Ny)|]. split; [intros y _; apply Q3|].
  intros k rho R. split.
  - intros lg rho1 E. destruct (Sim (scall funs k) rho (scall_ok funs TO k) R _ _ E) as [lg' [rho' [E1 [Sb [_ [R1 _]]]]]]. injection E1 as <- <-. exists [], rho. split; [reflexivity|]. split; [intros y _; apply R1|]. split; [exact Sb|]. split; [|auto]. intros Hx. specialize (M Hx k rho R). rewrite E in M. symmetry. exact M.
  - intros Hx E. specialize (M Hx k rho R). rewrite E in M. destruct M.
Qed.
(** propagate, then reduce *)
Definition rpre (f : rfold) : rfold := fun L C e => match pexp C e with Some e1 => f L C e1 | None => None end.
Lemma rpre_ok : forall fr V f, GoodF funs ptable fr V f -> GoodS funs ptable fr V (rpre f).
Proof.
  intros fr V f GF L C G e t L' C' b e' I Fr X St E. unfold rpre in E. destruct (pexp C e) as [e1|] eqn:E1; [|discriminate E].
  pose proof I as [K [N _]]. destruct (pexp_live C G K e t e1 X E1) as [X1 [[Y1 J1] V1]]. destruct (GF _ _ _ _ _ _ _ _ _ I Fr X1 ltac:(intros y Y; apply St, J1, Y) E) as [G1 [O1 [X2 [N2 [B2 D2]]]]]. exists G1. split; [exact O1|]. split; [exact X2|]. split; [exact N2|]. split; [intros y Y; destruct (B2 y Y) as [Z|Z]; [left; exact (Y1 y Z)|right; exact Z]|].
  intros k rho R. destruct (D2 k rho R) as [P F]. pose proof (scall_ok funs TO k) as Kc. split.
  - intros lg v Ev. destruct (V1 _ rho Kc R _ _ Ev) as [l1 [Ev1 Q1]]. destruct (P _ _ Ev1) as [lgb [rho' [R' [Ev2 [Q2 [T2 K2]]]]]]. exists lgb, rho'. split; [exact R'|]. split; [exact Ev2|]. split; [exact (sub_tr _ _ _ _ Q2 Q1)|]. split; [|exact K2].
    intros [Hp Hx]. destruct (pexp_exact C G K e t e1 X Hx E1) as [Px Ex]. destruct (Ex _ rho Kc R) as [A _]. rewrite (A _ Ev) in Ev1. injection Ev1 as <-. apply T2. auto.
  - intros [Hp Hx] Ev. destruct (pexp_exact C G K e t e1 X Hx E1) as [Px Ex]. destruct (Ex _ rho Kc R) as [_ B]. exact (F (conj Hp Px) (B Ev)).
Qed.
Lemma plain_isc : forall e, plain e = true -> isc e = true -> nocalls e = true.
Proof. intros [t x|op args|k e cs|c x y|ts t g a b] P I; try exact P. discriminate I. Qed.
Lemma mute_exact : forall A (o o' : outcome (list entry * A)), exact_ev o o' -> mute o' -> mute o.
Proof. intros A o o' [P F] M. destruct o as [[lg a]| |]; [rewrite (P _ eq_refl) in M; exact M|rewrite (F eq_refl) in M; exact M|exact I]. Qed.
Lemma agree_live : forall call C G rho e t, xty (live C G) e t -> seval call (ov C rho) e = seval call rho e.
Proof. intros call C G rho e t X. apply (proj1 (agree _ _ _) _ _ _ X). intros y u Y. exact (live_ov _ _ _ _ _ Y). Qed.
Lemma def_ok : forall fr V f L C G x t e S1 L' C' b, GoodF funs ptable fr V f -> Inv L C G -> (fr <= L)%nat -> xsty (cover C G) (SDef x t e) S1 -> stable fr V (slids e) -> (rframe x <= L)%nat -> C x = None -> rsimple f L C (SDef x t e) = Some (L', C', b) ->
  simple_out L C G (SDef x t e) S1 L' C' b (ptable /\ plain e = true).
Proof.
  intros fr V f L C G x t e S1 L' C' b GF I Fr X St Fx Cx E. unfold rsimple in E. destruct (pstmt C (SDef x t e)) as [[C1 l1]|] eqn:Ep; [|discriminate E]. pose proof Ep as Ep0. cbn [pstmt] in Ep. destruct (pexp C e) as [e1|] eqn:Ee; [|discriminate Ep]. inversion X as [S0 x0 t0 e0 Gt NV Xe| | | | |]; subst. pose proof I as [K [N Bd]].
  destruct (isc e1) eqn:Ic.
  - destruct (cval e1) as [v|] eqn:Cv; [|discriminate Ep]. rewrite Cx in Ep. injection Ep as <- <-. cbn [rones pstmts] in E. injection E as <- <- <-. apply away_ok; try assumption; try reflexivity; [intros z [= <-]; exact Fx|].
    intros [Hp Hx] k rho R. destruct (pexp_exact C G K e t e1 Xe Hx Ee) as [Px Ex]. pose proof (mute_exact _ _ _ (Ex _ rho (scall_ok funs TO k) R) (nocalls_mute _ _ _ (plain_isc _ Px Ic))) as M. rewrite u_sdef. destruct (seval (scall funs k) (ov C rho) e) as [[lg v']| |]; exact M.
  - unfold invalidate in Ep. rewrite Cx in Ep. injection Ep as <- <-. cbn [rones rone] in E. destruct (f L C e1) as [[[[L2 C2] b1] e2]|] eqn:E1; [|discriminate E]. cbn [pstmts] in E. rewrite app_nil_r in E. destruct (pstmt C2 (SDef x t e2)) as [[C3 l3]|] eqn:E3; [|discriminate E]. rewrite app_nil_r in E. injection E as <- <- <-.
    assert (Er : rpre f L C e = Some (L2, C2, b1, e2)) by (unfold rpre; rewrite Ee; exact E1). destruct (rpre_ok fr V f GF _ _ _ _ _ _ _ _ _ I Fr Xe St Er) as [G2 [O [X2 [N2 [_ D]]]]]. pose proof O as [LL [_ [_ [Kp _]]]]. destruct (Kp x Fx) as [A1 A2].
    apply (tail_ok L C G L2 C2 G2 b1 (SDef x t e) (SDef x t e2) (cput (cover C G) x t) (cput (cover C2 G2) x t) C3 l3 (ptable /\ plain e = true) O E3 eq_refl N2); [|reflexivity|intros z [= <-]; exact Fx| |].
    + constructor; [exact Gt| |exact (proj1 ty_sub _ _ _ X2 _ (live_cover _ _))]. unfold newv, cover in *. rewrite A1, A2. exact NV.
    + intros y Y. unfold cput. destruct (rid_eqb y x); [reflexivity|]. unfold cover. destruct (Kp y Y) as [-> ->]. reflexivity.
    + intros k rho R. destruct (D k rho R) as [P F]. split.
      * intros lg rho1 Ev. rewrite u_sdef in Ev. apply ok_inv in Ev as [[la v] [Ea Ev]]. cbn [fst snd] in Ev. injection Ev as <- <-. destruct (P _ _ Ea) as [lgb [rho2 [R2 [V2 [Q2 [T2 K2]]]]]]. exists lgb, rho2, [], (rupd (ov C2 rho2) x v). split; [exact R2|]. split; [exact K2|]. split; [rewrite u_sdef, (agree_live _ _ _ _ _ _ X2), V2; reflexivity|]. rewrite app_nil_r. split; [|split; [exact Q2|exact T2]].
        intros y Y. unfold rupd. destruct (rid_eqb y x); [reflexivity|]. unfold ov. rewrite (proj1 (Kp y Y)), (K2 y Y). reflexivity.
      * intros Hx Ev. left. apply (F Hx). rewrite u_sdef in Ev. destruct (seval (scall funs k) (ov C rho) e); [discriminate Ev|reflexivity|discriminate Ev].
Qed.
Lemma assert_ok : forall fr V f L C G e err S1 L' C' b, GoodF funs ptable fr V f -> Inv L C G -> (fr <= L)%nat -> xsty (cover C G) (SAssert e err) S1 -> stable fr V (slids e) -> rsimple f L C (SAssert e err) = Some (L', C', b) ->
  simple_out L C G (SAssert e err) S1 L' C' b (ptable /\ plain e = true).
Proof.
  intros fr V f L C G e err S1 L' C' b GF I Fr X St E. unfold rsimple in E. destruct (pstmt C (SAssert e err)) as [[C1 l1]|] eqn:Ep; [|discriminate E]. pose proof Ep as Ep0. cbn [pstmt] in Ep. destruct (pexp C e) as [e1|] eqn:Ee; [|discriminate Ep]. inversion X as [| |S0 e0 err0 Xe| | |]; subst. pose proof I as [K [N Bd]].
  destruct (bnum e1) as [[]|] eqn:Bn; [|discriminate Ep|].
  - injection Ep as <- <-. cbn [rones pstmts] in E. injection E as <- <- <-. apply away_ok; try assumption; try reflexivity; [intros z Z; discriminate Z|].
    intros [Hp Hx] k rho R. destruct (pexp_exact C G K e CBool e1 Xe Hx Ee) as [Px Ex]. destruct (Ex _ rho (scall_ok funs TO k) R) as [A B]. pose proof (bnum_ok _ _ Bn) as Q. subst e1. cbn [sexec].
    destruct (seval (scall funs k) (ov C rho) e) as [[lg v']| |]; [assert (A' : Ok ([], VBool true) = Ok (lg, v')) by exact (A _ eq_refl); injection A' as <- <-; reflexivity|assert (B' : Ok ([] : list entry, VBool true) = Failed) by exact (B eq_refl); discriminate B'|exact Logic.I].
  - injection Ep as <- <-. cbn [rones rone] in E. destruct (f L C e1) as [[[[L2 C2] b1] e2]|] eqn:E1; [|discriminate E]. cbn [pstmts] in E. rewrite app_nil_r in E. destruct (pstmt C2 (SAssert e2 err)) as [[C3 l3]|] eqn:E3; [|discriminate E]. rewrite app_nil_r in E. injection E as <- <- <-.
    assert (Er : rpre f L C e = Some (L2, C2, b1, e2)) by (unfold rpre; rewrite Ee; exact E1). destruct (rpre_ok fr V f GF _ _ _ _ _ _ _ _ _ I Fr Xe St Er) as [G2 [O [X2 [N2 [_ D]]]]]. pose proof O as [LL [_ [_ [Kp _]]]].
    apply (tail_ok L C G L2 C2 G2 b1 (SAssert e err) (SAssert e2 err) (cover C G) (cover C2 G2) C3 l3 (ptable /\ plain e = true) O E3 eq_refl N2); [|reflexivity|intros z Z; discriminate Z| |].
    + constructor. exact (proj1 ty_sub _ _ _ X2 _ (live_cover _ _)).
    + intros y Y. unfold cover. destruct (Kp y Y) as [-> ->]. reflexivity.
    + intros k rho R. destruct (D k rho R) as [P F]. split.
      * intros lg rho1 Ev. cbn [sexec] in Ev. apply ok_inv in Ev as [[la v] [Ea Ev]]. cbn [fst snd] in Ev. destruct v as [| |[]| | |]; try discriminate Ev. cbv beta iota in Ev. injection Ev as <- <-. destruct (P _ _ Ea) as [lgb [rho2 [R2 [V2 [Q2 [T2 K2]]]]]]. exists lgb, rho2, [], (ov C2 rho2). split; [exact R2|]. split; [exact K2|]. split; [cbn [sexec]; rewrite (agree_live _ _ _ _ _ _ X2), V2; reflexivity|]. rewrite app_nil_r. split; [|split; [exact Q2|exact T2]].
        intros y Y. unfold ov. rewrite (proj1 (Kp y Y)), (K2 y Y). reflexivity.
      * intros Hx Ev. cbn [sexec] in Ev. destruct (seval (scall funs k) (ov C rho) e) as [[la v]| |] eqn:Ea; [|left; exact (F Hx eq_refl)|discriminate Ev]. right. destruct (P _ _ eq_refl) as [lgb [rho2 [R2 [V2 _]]]]. exists lgb, rho2. split; [exact R2|]. cbn [sexec]. rewrite (agree_live _ _ _ _ _ _ X2), V2. cbn [obnd fst snd] in *. destruct v as [| |[]| | |]; try discriminate Ev. reflexivity.
Qed.
Lemma log_ok : forall fr V f L C G fmt args S1 L' C' b, GoodF funs ptable fr V f -> Inv L C G -> (fr <= L)%nat -> xsty (cover C G) (SLog fmt args) S1 -> stable fr V (idlist slids args) -> rsimple f L C (SLog fmt args) = Some (L', C', b) ->
  simple_out L C G (SLog fmt args) S1 L' C' b (ptable /\ forallb plain args = true).
Proof.
  intros fr V f L C G fmt args S1 L' C' b GF I Fr X St E. unfold rsimple in E. destruct (pstmt C (SLog fmt args)) as [[C1 l1]|] eqn:Ep; [|discriminate E]. cbn [pstmt] in Ep. destruct (pexps C args) as [l|] eqn:Ee; [|discriminate Ep]. cbn [option_map] in Ep. injection Ep as <- <-. inversion X as [| | |S0 fmt0 args0 ts Xe| |]; subst. pose proof I as [K [N Bd]].
  cbn [rones rone] in E. destruct (rall f L C l) as [[[[L2 C2] b1] l2]|] eqn:E1; [|discriminate E]. cbn [pstmts] in E. rewrite app_nil_r in E. destruct (pstmt C2 (SLog fmt l2)) as [[C3 l3]|] eqn:E3; [|discriminate E]. rewrite app_nil_r in E. injection E as <- <- <-.
  assert (Xc : xtys (cover C (live C G)) args ts) by (apply (proj2 ty_sub _ _ _ Xe); intros y u; unfold cover, live; destruct (C y) as [[]|]; auto). destruct (pexps_ok C (live C G) K args ts l Xc Ee) as [Xl [[_ J] V1]].
  destruct (rall_ok funs ptable fr V f GF l L C G ts L2 C2 b1 l2 I Fr Xl ltac:(intros y Y; apply St, J, Y) E1) as [G2 [O [X2 [N2 [_ D]]]]]. pose proof O as [LL [_ [_ [Kp _]]]].
  assert (Ag : forall rho, sevals nocall (ov C2 rho) l2 = sevals nocall rho l2) by (intros rho; apply (proj2 (agree _ _ _) _ _ _ X2); intros y u Y; exact (live_ov _ _ _ _ _ Y)).
  apply (tail_ok L C G L2 C2 G2 b1 (SLog fmt args) (SLog fmt l2) (cover C G) (cover C2 G2) C3 l3 (ptable /\ forallb plain args = true) O E3 eq_refl N2); [|reflexivity|intros z Z; discriminate Z| |].
  + econstructor. exact (proj2 ty_sub _ _ _ X2 _ (live_cover _ _)).
  + intros y Y. unfold cover. destruct (Kp y Y) as [-> ->]. reflexivity.
  + intros k rho R. destruct (D k rho R) as [P F]. pose proof (scall_ok funs TO k) as Kc. pose proof (rok_sub _ _ _ (live_sub_g C G) R) as Rl.
    assert (Ex : forallb plain args = true -> forallb plain l = true /\ exact_ev (sevals (scall funs k) (ov C rho) args) (sevals (scall funs k) rho l)). { intros Hx. destruct (pexps_exact C G K args ltac:(apply Forall_forall; intros e _ t e'; apply (pexp_exact C G K e t e')) ts l Xe Hx Ee) as [A B]. split; [exact A|exact (B _ rho Kc R)]. }
    split.
    * intros lg rho1 Ev. cbn [sexec] in Ev. apply ok_inv in Ev as [[la vs] [Ea Ev]]. cbn [fst snd] in Ev. injection Ev as <- <-. destruct (V1 _ rho Kc Rl _ _ Ea) as [lx [Ex1 Qx]]. destruct (P _ _ Ex1) as [lgb [rho2 [R2 [V2 [Q2 [T2 K2]]]]]]. exists lgb, rho2, [(fmt, vs)], (ov C2 rho2). split; [exact R2|]. split; [exact K2|]. split; [cbn [sexec]; rewrite Ag, V2; reflexivity|]. split; [intros y Y; unfold ov; rewrite (proj1 (Kp y Y)), (K2 y Y); reflexivity|]. split; [apply sub_app; [exact (sub_tr _ _ _ _ Q2 Qx)|apply sublog_refl]|].
      intros [Hp Hx]. destruct (Ex Hx) as [Hl [A _]]. rewrite (A _ Ea) in Ex1. injection Ex1 as <-. rewrite (T2 (conj Hp Hl)). reflexivity.
    * intros [Hp Hx] Ev. left. destruct (Ex Hx) as [Hl [_ B]]. apply (F (conj Hp Hl)), B. cbn [sexec] in Ev. destruct (sevals (scall funs k) (ov C rho) args); [discriminate Ev|reflexivity|discriminate Ev].
Qed.
Lemma evals_ids : forall call r1 r2 l, Forall (fun e => (forall y, In y (eids e) -> r1 y = r2 y) -> seval call r1 e = seval call r2 e) l -> (forall y, In y (idlist eids l) -> r1 y = r2 y) -> sevals call r1 l = sevals call r2 l.
Proof. intros call r1 r2 l H. induction H as [|e l E H IH]; intros Q; [reflexivity|]. cbn [idlist] in Q. rewrite !u_el_cons, E, IH; [reflexivity| |]; intros y Y; apply Q, in_or_app; auto. Qed.
Lemma eval_ids : forall call r1 r2 e, (forall y, In y (eids e) -> r1 y = r2 y) -> seval call r1 e = seval call r2 e.
Proof.
  intros call r1 r2. induction e as [t x|op args IH|k e cs IHe IHc|c x y IHc IHx IHy|ts t g a b IHa IHb] using sexp_ind'; cbn [eids]; intros Q.
  - cbn [seval]. rewrite Q by (left; reflexivity). reflexivity.
  - cbn [seval]. change (eval_list (seval call r1)) with (sevals call r1). change (eval_list (seval call r2)) with (sevals call r2). rewrite (evals_ids call r1 r2 args IH Q). reflexivity.
  - rewrite !u_seval_par. rewrite IHe, (evals_ids call r1 r2 cs IHc); [reflexivity| |]; intros y Y; apply Q, in_or_app; auto.
  - rewrite !u_seval_cond. rewrite IHc, IHx, IHy; [reflexivity| | |]; intros z Z; apply Q; rewrite ?in_app_iff; auto.
  - rewrite !u_seval_call. rewrite (evals_ids call r1 r2 a IHa), (evals_ids call r1 r2 b IHb); [reflexivity| |]; intros y Y; apply Q, in_or_app; auto.
Qed.
Lemma steps_ids : forall call r1 r2 p, (forall y, In y (pids eids p) -> r1 y = r2 y) -> ssteps call r1 p = ssteps call r2 p.
Proof.
  intros call r1 r2. induction p as [|[i|m|k] p IH]; intros Q; cbn [ssteps]; [reflexivity| | |]; unfold pids in *; cbn [flat_map] in Q.
  - rewrite (eval_ids call r1 r2 i), IH; [reflexivity| |]; intros y Y; apply Q, in_or_app; auto.
  - rewrite IH; [reflexivity|]. exact Q.
  - rewrite IH; [reflexivity|]. exact Q.
Qed.
Lemma path_ids : forall S t p te, xpath S t p te -> forall y, In y (pids eids p) -> exists u, S y = Some u.
Proof.
  intros S t p te H. unfold pids. induction H as [t|ty n i r t N Y H IH|ms m tm r t a b E N H IH|ts k tk r t E H IH]; intros y I; cbn [flat_map] in I; [destruct I| | |]; try (exact (IH y I)).
  apply in_app_or in I as [I|I]; [exact (proj1 ty_ids _ _ _ Y y I)|exact (IH y I)].
Qed.
Lemma set_mid : forall fr V f L C G x t p e te p1 e1 C1 L1 C1' b1 e2 L2 C2 b2 p2 C2h, GoodF funs ptable fr V f -> Inv L C G -> (fr <= L)%nat -> (rframe x <= L)%nat ->
  xpath (cover C G) t p te -> xty (cover C G) e te -> stable fr V (pids slids p) -> stable fr V (slids e) -> cover C G x = Some t ->
  ppath C p = Some p1 -> pexp C e = Some e1 -> (forall y, y <> x -> C1 y = C y) -> C1 x = None -> f L C1 e1 = Some (L1, C1', b1, e2) -> rpath f L1 C1' p1 = Some (L2, C2, b2, p2) -> (forall y, y <> x -> C2h y = C2 y) -> (C2 x = None -> C2h x = C x) ->
  exists G2, Out L C G L2 C2h G2 (b1 ++ b2) /\ xty (cover C2h G2) e2 te /\ xpath (cover C2h G2) t p2 te /\ nocalls e2 = true /\ forallb acc_nocalls p2 = true /\
  forall k rho, rok G rho ->
  (forall la v lb ps, seval (scall funs k) (ov C rho) e = Ok (la, v) -> ssteps (scall funs k) (ov C rho) p = Ok (lb, ps) -> exists lgb rho2, sexecs nocall rho (b1 ++ b2) = Ok (lgb, rho2) /\ (forall y, (rframe y <= L)%nat -> rho2 y = rho y) /\
    seval nocall (ov C2h rho2) e2 = Ok ([], v) /\ ssteps nocall (ov C2h rho2) p2 = Ok ([], ps) /\ sublog lgb (la ++ lb) /\ (ptable /\ plain e && forallb acc_plain p = true -> lgb = la ++ lb)) /\
  (ptable /\ plain e && forallb acc_plain p = true -> seval (scall funs k) (ov C rho) e = Failed \/ (exists r, seval (scall funs k) (ov C rho) e = Ok r /\ ssteps (scall funs k) (ov C rho) p = Failed) -> sexecs nocall rho (b1 ++ b2) = Failed).
Proof.
  intros fr V f L C G x t p e te p1 e1 C1 L1 C1' b1 e2 L2 C2 b2 p2 C2h GF I Fr Fx Xp Xe Sp Se Cx Ep Ee Q1 N1 E1 E2 Q2 Qx'. pose proof I as [K [N Bd]].
  destruct (pexp_live C G K e te e1 Xe Ee) as [Y1 [[_ J1] V1]]. destruct (ppath_live C G K t p te p1 Xp Ep) as [Yp [Jp [_ Vp]]].
  assert (K1 : forall y t0 v, C1 y = Some (t0, v) -> C y = Some (t0, v)). { intros y t0 v E. destruct (rid_eqb y x) eqn:D; [apply rid_eqb_ok in D as ->; congruence|]. rewrite <- Q1; [exact E|]. intros ->. rewrite rid_eqb_refl in D. discriminate D. }
  assert (I1 : Inv L C1 G). { split; [intros y t0 v E; exact (K _ _ _ (K1 _ _ _ E))|]. split; [intros y t0 v E; exact (N _ _ _ (K1 _ _ _ E))|]. intros y Y. destruct (Bd y Y) as [A B]. split; [|exact B]. rewrite Q1; [exact A|]. intros ->. lia. }
  assert (Sl : subctx (live C G) (live C1 G)). { intros y u. unfold live. destruct (C1 y) as [[u1 v1]|] eqn:E; [rewrite (K1 _ _ _ E); auto|]. destruct (C y); [discriminate|auto]. }
  destruct (GF _ _ _ _ _ _ _ _ _ I1 Fr (proj1 ty_sub _ _ _ Y1 _ Sl) ltac:(intros y Y; apply Se, J1, Y) E1) as [G1 [O1 [Z1 [M1 [B1 D1]]]]]. pose proof O1 as [LL1 [I1' [_ [Kp1 _]]]].
  destruct (rpath_ok funs ptable fr V f GF p1 L1 C1' G1 t te L2 C2 b2 p2 I1' ltac:(lia) (path_sub _ _ _ _ (path_sub _ _ _ _ Yp _ Sl) _ (live_kept _ _ _ _ _ I1 Kp1)) ltac:(intros y Y; apply Sp, Jp, Y) E2) as [G2 [O2 [Z2 [M2 [B2 D2]]]]]. pose proof O2 as [LL2 [I2 [_ [Kp2 _]]]]. pose proof (out_trans _ _ _ _ _ _ _ _ _ _ _ O1 O2) as O. pose proof O as [LL [_ [XO [Kp NO]]]].
  assert (C2x : C2 x = None) by (rewrite (proj1 (Kp x Fx)); exact N1). pose proof (Qx' C2x) as Qx. pose proof (proj2 (Kp x Fx)) as G2x. pose proof I2 as [K2 [N2 Bd2]].
  assert (H2 : forall y, y = x \/ y <> x) by (intros y; destruct (rid_eqb y x) eqn:D; [left; apply rid_eqb_ok, D|right; intros ->; rewrite rid_eqb_refl in D; discriminate D]).
  assert (Sc : subctx (live C2 G2) (cover C2h G2)). { intros y u. unfold live, cover. destruct (H2 y) as [->|Ny]; [|rewrite (Q2 y Ny); destruct (C2 y); [discriminate|auto]]. rewrite C2x, Qx, G2x. destruct (C x) as [[t0 v0]|] eqn:CC; [|auto]. intros E. destruct (proj1 (N _ _ _ CC)) as [A|A]; congruence. }
  assert (Nx1 : forall y, In y (eids e1) -> C y = None). { intros y Y. destruct (proj1 ty_ids _ _ _ Y1 y Y) as [u U]. unfold live in U. destruct (C y); [discriminate U|reflexivity]. }
  assert (Nxp : forall y, In y (pids eids p1) -> C y = None). { intros y Y. destruct (path_ids _ _ _ _ Yp y Y) as [u U]. unfold live in U. destruct (C y); [discriminate U|reflexivity]. }
  exists G2. split; [|split; [|split; [|split; [|split]]]].
  - split; [exact LL|]. split; [|split; [exact XO|split; [|exact NO]]].
    + split; [|split].
      * intros y u v E. destruct (H2 y) as [->|Ny]; [rewrite Qx in E; exact (K _ _ _ E)|rewrite (Q2 y Ny) in E; exact (K2 _ _ _ E)].
      * intros y u v E. destruct (H2 y) as [->|Ny]; [rewrite Qx in E; unfold newv; rewrite G2x; exact (N _ _ _ E)|rewrite (Q2 y Ny) in E; exact (N2 _ _ _ E)].
      * intros y Y. rewrite Q2 by (intros ->; lia). apply Bd2, Y.
    + intros y Y. destruct (Kp y Y) as [A B]. split; [|exact B]. destruct (H2 y) as [->|Ny]; [exact Qx|]. rewrite (Q2 y Ny), A. apply Q1, Ny.
  - refine (proj1 ty_sub _ _ _ Z1 _ _). intros y u U. apply Sc. exact (live_kept _ _ _ _ _ I1' Kp2 _ _ U).
  - exact (path_sub _ _ _ _ Z2 _ Sc).
  - exact M1.
  - exact M2.
  - assert (Ag1 : forall rho, seval nocall (ov C2h rho) e2 = seval nocall rho e2). { intros rho. apply eval_ids. intros y Y. unfold ov. replace (C2h y) with (@None (cty * value_)); [reflexivity|]. symmetry. destruct (H2 y) as [->|Ny]; [rewrite Qx; destruct (B1 _ Y) as [W|W]; [exact (Nx1 _ W)|lia]|]. rewrite (Q2 y Ny). destruct (proj1 ty_ids _ _ _ Z1 y Y) as [u U]. pose proof (live_kept _ _ _ _ _ I1' Kp2 _ _ U) as U'. unfold live in U'. destruct (C2 y); [discriminate U'|reflexivity]. }
    assert (Ag2 : forall rho, ssteps nocall (ov C2h rho) p2 = ssteps nocall rho p2). { intros rho. apply steps_ids. intros y Y. unfold ov. replace (C2h y) with (@None (cty * value_)); [reflexivity|]. symmetry. destruct (H2 y) as [->|Ny]; [rewrite Qx; destruct (B2 _ Y) as [W|W]; [exact (Nxp _ W)|lia]|]. rewrite (Q2 y Ny). destruct (path_ids _ _ _ _ Z2 y Y) as [u U]. unfold live in U. destruct (C2 y); [discriminate U|reflexivity]. }
    intros k rho R. destruct (D1 k rho R) as [P1 F1]. pose proof (scall_ok funs TO k) as Kc.
    assert (Xe1 : plain e = true -> plain e1 = true /\ exact_ev (seval (scall funs k) (ov C rho) e) (seval (scall funs k) rho e1)) by (intros Hx; destruct (pexp_exact C G K e te e1 Xe Hx Ee) as [A B]; split; [exact A|exact (B _ rho Kc R)]).
    assert (Xp1 : forallb acc_plain p = true -> forallb acc_plain p1 = true /\ exact_ev (ssteps (scall funs k) (ov C rho) p) (ssteps (scall funs k) rho p1)) by (intros Hx; destruct (ppath_exact C G K t p te p1 Xp Hx Ep) as [A B]; split; [exact A|exact (B _ rho Kc R)]).
    assert (St : forall rho1, (forall y, (rframe y <= L)%nat -> rho1 y = rho y) -> ssteps (scall funs k) rho1 p1 = ssteps (scall funs k) rho p1) by (intros rho1 Kr; apply (agree_path _ _ _ _ _ _ _ Yp); intros y u U; apply Kr; exact (live_frame _ _ _ _ _ I U)).
    split.
    + intros la v lb ps Ea Eb. destruct (V1 _ rho Kc R _ _ Ea) as [la1 [Ea1 Sa1]]. destruct (Vp _ rho Kc R _ _ Eb) as [lb1 [Eb1 Sb1]]. destruct (P1 _ _ Ea1) as [l1 [r1 [R1 [W1 [S1 [T1 Kr1]]]]]]. pose proof (rok_out _ _ _ _ _ _ _ _ _ _ O1 R R1) as Rk1. destruct (D2 k r1 Rk1) as [P2 _]. rewrite <- (St r1 Kr1) in Eb1. destruct (P2 _ _ Eb1) as [l2 [r2 [R2 [W2 [S2 [T2 Kr2]]]]]].
      exists (l1 ++ l2), r2. split; [exact (run_app _ _ _ _ _ _ _ _ R1 R2)|]. split; [intros y Y; rewrite Kr2 by lia; apply Kr1, Y|]. split; [rewrite Ag1, <- W1; apply (proj1 (agree _ _ _) _ _ _ Z1); intros y u U; apply Kr2; exact (live_frame _ _ _ _ _ I1' U)|]. split; [rewrite Ag2; exact W2|]. split; [apply sub_app; [exact (sub_tr _ _ _ _ S1 Sa1)|exact (sub_tr _ _ _ _ S2 Sb1)]|].
      intros [Hp Hx]. apply andb_true_iff in Hx as [Hx1 Hx2]. destruct (Xe1 Hx1) as [A1 [B1' _]]. destruct (Xp1 Hx2) as [A2 [B2' _]]. rewrite (B1' _ Ea) in Ea1. injection Ea1 as <-. rewrite (St r1 Kr1), (B2' _ Eb) in Eb1. injection Eb1 as <-. rewrite (T1 (conj Hp A1)), (T2 (conj Hp A2)). reflexivity.
    + intros [Hp Hx]. apply andb_true_iff in Hx as [Hx1 Hx2]. destruct (Xe1 Hx1) as [A1 [B1' B1f]]. destruct (Xp1 Hx2) as [A2 [B2' B2f]]. intros [Ef|[[la v] [Ea Ef]]]; [exact (fail_left _ _ _ _ (F1 (conj Hp A1) (B1f Ef)))|]. destruct (P1 _ _ (B1' _ Ea)) as [l1 [r1 [R1 [W1 [S1 [T1 Kr1]]]]]]. pose proof (rok_out _ _ _ _ _ _ _ _ _ _ O1 R R1) as Rk1. destruct (D2 k r1 Rk1) as [_ F2]. apply (fail_right _ _ _ _ _ _ R1). apply (F2 (conj Hp A2)). rewrite (St r1 Kr1). exact (B2f Ef).
Qed.
Lemma set_ok : forall fr V f L C G x t p e S1 L' C' b, GoodF funs ptable fr V f -> Idem f -> Inv L C G -> (fr <= L)%nat -> (rframe x <= L)%nat -> xsty (cover C G) (SSet x t p e) S1 -> stable fr V (pids slids p ++ slids e) -> rsimple f L C (SSet x t p e) = Some (L', C', b) ->
  simple_out L C G (SSet x t p e) S1 L' C' b (ptable /\ plain e && forallb acc_plain p = true).
Proof.
  intros fr V f L C G x t p e S1 L' C' b GF Id I Fr Fx X St E. unfold rsimple in E. destruct (pstmt C (SSet x t p e)) as [[C1 l1]|] eqn:Ep; [|discriminate E]. inversion X as [|S0 x0 t0 p0 e0 te Cx Gt Xp Xe| | | |]; subst. pose proof I as [K [N Bd]].
  pose proof Ep as Ep0. cbn [pstmt] in Ep. destruct (ppath C p) as [p1|] eqn:Pp; [|discriminate Ep]. destruct (pexp C e) as [e1|] eqn:Pe; [|discriminate Ep].
  assert (Cases : (l1 = [] /\ exists v u c ps c', cval e1 = Some v /\ C x = Some (u, c) /\ lsteps p1 = Some ps /\ put ps v c = Some c') \/ (C1, l1) = invalidate C x (SSet x t p1 e1)).
  { destruct (isc e1); [|right; injection Ep as <-; reflexivity]. destruct (cval e1) as [v|]; [|discriminate Ep]. destruct (C x) as [[u c]|] eqn:CC; [|right; injection Ep as <-; reflexivity]. destruct (lsteps p1) as [ps|]; [|right; injection Ep as <-; reflexivity]. destruct (put ps v c) as [c'|] eqn:Pc; [|right; injection Ep as <-; reflexivity]. left. injection Ep as <- <-. split; [reflexivity|]. exists v, u, c, ps, c'. auto. }
  destruct Cases as [[-> [v [u [c [ps [c' [Ev [CC [El Pc]]]]]]]]]|Iv].
  - cbn [rones pstmts] in E. injection E as <- <- <-. apply away_ok; try assumption; try reflexivity; [intros z [= <-]; exact Fx|].
    intros [Hp Hx] k rho R. apply andb_true_iff in Hx as [Hx1 Hx2]. destruct (pexp_exact C G K e te e1 Xe Hx1 Pe) as [_ Ex]. destruct (Ex _ rho (scall_ok funs TO k) R) as [A1 B1]. destruct (ppath_exact C G K t p te p1 Xp Hx2 Pp) as [_ Ex2]. destruct (Ex2 _ rho (scall_ok funs TO k) R) as [A2 B2]. rewrite (cval_eval _ _ Ev) in A1, B1. rewrite (lsteps_ok _ _ El) in A2, B2. cbn [sexec].
    destruct (seval (scall funs k) (ov C rho) e) as [r| |]; [|discriminate (B1 eq_refl)|exact Logic.I]. specialize (A1 _ eq_refl). injection A1 as <-. cbn [obnd fst snd]. destruct (ssteps (scall funs k) (ov C rho) p) as [r| |]; [|discriminate (B2 eq_refl)|exact Logic.I]. specialize (A2 _ eq_refl). injection A2 as <-. cbn [obnd fst snd]. unfold ov at 1. rewrite CC. cbn [of_opt obnd]. rewrite Pc. reflexivity.
  - assert (M : exists L2 C2 b2 p2 e2 L1 C1' b1 C2h C3 l3, (forall y, y <> x -> C1 y = C y) /\ C1 x = None /\ f L C1 e1 = Some (L1, C1', b1, e2) /\ rpath f L1 C1' p1 = Some (L2, C2, b2, p2) /\ (forall y, y <> x -> C2h y = C2 y) /\ (C2 x = None -> C2h x = C x) /\ pstmt C2h (SSet x t p2 e2) = Some (C3, l3) /\ L' = L2 /\ C' = C3 /\ b = (b1 ++ b2) ++ l3).
    { unfold invalidate in Iv. destruct (C x) as [[t0 v0]|] eqn:CC; injection Iv as -> ->.
      - cbn [rones rone] in E. pose proof (K _ _ _ CC) as T0. destruct (f L (kput C x None) (lit t0 v0)) as [[[[La Ca] ba] ea]|] eqn:Ea; [|discriminate E]. apply Id in Ea; [|exact (lit_flatx _ _ T0)]. injection Ea as -> -> -> ->.
        destruct (f L (kput C x None) e1) as [[[[L1 C1'] b1] e2]|] eqn:E1; [|discriminate E]. destruct (rpath f L1 C1' p1) as [[[[L2 C2] b2] p2]|] eqn:E2; [|discriminate E]. cbn [app] in E. rewrite app_nil_r in E. cbn [pstmts] in E. cbn [pstmt] in E. fold pstmt in E. rewrite (pexp_lit _ _ _ T0), (proj2 (proj2 (lit_ok _ _ T0))) in E. destruct (cval (lit t0 v0)) as [w|] eqn:Cv; [|discriminate E]. destruct (C2 x) eqn:C2x; [discriminate E|].
        assert (w = v0) as ->. { pose proof (cval_eval _ _ Cv nocall (fun _ => None)) as H. rewrite (proj1 (proj2 (lit_ok _ _ T0))) in H. injection H as ->. reflexivity. }
        destruct (pstmt (kput C2 x (Some (t0, v0))) (SSet x t p2 e2)) as [[C3 l3]|] eqn:E3; cbn [pstmt] in E3; rewrite E3 in E; [|discriminate E]. cbn [app] in E. rewrite app_nil_r in E. injection E as <- <- <-.
        exists L2, C2, b2, p2, e2, L1, C1', b1, (kput C2 x (Some (t0, v0))), C3, l3. split; [intros y Ny; unfold kput; rewrite rid_eqb_ne by exact Ny; reflexivity|]. split; [unfold kput; rewrite rid_eqb_refl; reflexivity|]. split; [reflexivity|]. split; [exact E2|]. split; [intros y Ny; unfold kput; rewrite rid_eqb_ne by exact Ny; reflexivity|]. split; [intros _; unfold kput; rewrite rid_eqb_refl; reflexivity|]. split; [exact E3|]. repeat split; auto.
      - cbn [rones rone] in E. destruct (f L C e1) as [[[[L1 C1'] b1] e2]|] eqn:E1; [|discriminate E]. destruct (rpath f L1 C1' p1) as [[[[L2 C2] b2] p2]|] eqn:E2; [|discriminate E]. rewrite app_nil_r in E. cbn [pstmts] in E. destruct (pstmt C2 (SSet x t p2 e2)) as [[C3 l3]|] eqn:E3; [|discriminate E]. rewrite app_nil_r in E. injection E as <- <- <-.
        exists L2, C2, b2, p2, e2, L1, C1', b1, C2, C3, l3. split; [reflexivity|]. split; [exact CC|]. split; [reflexivity|]. split; [exact E2|]. split; [reflexivity|]. split; [intros H; exact H|]. split; [exact E3|]. repeat split; try reflexivity. }
    destruct M as [L2 [C2 [b2 [p2 [e2 [L1 [C1' [b1 [C2h [C3 [l3 [Q1 [N1 [E1 [E2 [Q2 [Qx [E3 [-> [-> ->]]]]]]]]]]]]]]]]]]]].
    destruct (set_mid fr V f L C G x t p e te p1 e1 C1 L1 C1' b1 e2 L2 C2 b2 p2 C2h GF I Fr Fx Xp Xe ltac:(intros y Y; apply St, in_or_app; left; exact Y) ltac:(intros y Y; apply St, in_or_app; right; exact Y) Cx Pp Pe Q1 N1 E1 E2 Q2 Qx) as [G2 [O [X2 [Xp2 [N2 [M2 D]]]]]]. pose proof O as [LL [_ [_ [Kp _]]]].
    apply (tail_ok L C G L2 C2h G2 (b1 ++ b2) (SSet x t p e) (SSet x t p2 e2) (cover C G) (cover C2h G2) C3 l3 _ O E3 eq_refl); [cbn [snocalls]; rewrite N2, andb_true_r; exact M2| |reflexivity|intros z [= <-]; exact Fx| |].
    + econstructor; [|exact Gt|exact Xp2|exact X2]. unfold cover in *. destruct (Kp x Fx) as [-> ->]. exact Cx.
    + intros y Y. unfold cover. destruct (Kp y Y) as [-> ->]. reflexivity.
    + intros k rho R. destruct (D k rho R) as [P F]. split.
      * intros lg rho1 Ev. cbn [sexec] in Ev. apply ok_inv in Ev as [[la v] [Ea Ev]]. apply ok_inv in Ev as [[lb ps] [Eb Ev]]. cbn [fst snd] in Ev. apply ok_inv in Ev as [c [Ec Ev]]. apply ok_inv in Ev as [c' [Ec' Ev]]. injection Ev as <- <-. destruct (P _ _ _ _ Ea Eb) as [lgb [rho2 [R2 [K2 [V2 [W2 [Q3 T2]]]]]]]. exists lgb, rho2, [], (rupd (ov C2h rho2) x c'). split; [exact R2|]. split; [exact K2|].
        assert (Ox : forall y, (rframe y <= L)%nat -> ov C2h rho2 y = ov C rho y) by (intros y Y; unfold ov; rewrite (proj1 (Kp y Y)), (K2 y Y); reflexivity).
        split; [cbn [sexec]; rewrite V2; cbn [obnd]; rewrite W2; cbn [obnd fst snd]; rewrite (Ox x Fx), Ec; cbn [obnd]; rewrite Ec'; reflexivity|]. rewrite app_nil_r. split; [|split; [exact Q3|exact T2]]. intros y Y. unfold rupd. destruct (rid_eqb y x); [reflexivity|]. apply Ox, Y.
      * intros Hx Ev. cbn [sexec] in Ev. destruct (seval (scall funs k) (ov C rho) e) as [[la v]| |] eqn:Ea; [|left; exact (F Hx (or_introl eq_refl))|discriminate Ev]. cbn [obnd fst snd] in Ev. destruct (ssteps (scall funs k) (ov C rho) p) as [[lb ps]| |] eqn:Eb; [|left; apply (F Hx); right; exists (la, v); auto|discriminate Ev]. right. destruct (P _ _ _ _ eq_refl eq_refl) as [lgb [rho2 [R2 [K2 [V2 [W2 _]]]]]]. exists lgb, rho2. split; [exact R2|]. cbn [obnd fst snd] in Ev.
        cbn [sexec]. rewrite V2. cbn [obnd]. rewrite W2. cbn [obnd fst snd]. replace (ov C2h rho2 x) with (ov C rho x) by (unfold ov; rewrite (proj1 (Kp x Fx)), (K2 x Fx); reflexivity). destruct (ov C rho x) as [c|]; [|discriminate Ev]. cbn [of_opt obnd] in *. destruct (put ps v c); [discriminate Ev|reflexivity].
Qed.
End ReduceSimple.
