(** Proofs about TProp.v: each statement, the whole program. *)
From Coq Require Import String Ascii.
From Coq Require Import ZArith NArith List Bool Lia.
From Verif Require Import PField Interp Bits Zir CgProg UintOpt Str Abi Typed Flatten FlattenOps FlattenSim FlattenRun Writes Redefine WritesVal WritesExp ZProp ZPropStmt Src SrcTy TProp TPropOk TPropArr TPropOps TPropExp TPropStmt.
Import ListNotations.
Open Scope Z_scope.

Section TPropProg.
Context {PF : PrimeField}.

Lemma lsteps_ty : forall S t p te, xpath S t p te -> forall ps, lsteps p = Some ps -> step_ty t ps te.
Proof.
  intros S t p te H. induction H as [t|ty n i r t N Y H IH|ms m tm r t a b E N H IH|ts k tk r t E H IH]; intros ps L; cbn [lsteps] in L.
  - injection L as <-. constructor.
  - destruct (unum i) as [k|]; [|discriminate L]. destruct (lsteps r) as [l|]; [|discriminate L]. injection L as <-. constructor; auto.
  - destruct (lsteps r) as [l|]; [|discriminate L]. injection L as <-. econstructor; eauto.
  - destruct (lsteps r) as [l|]; [|discriminate L]. injection L as <-. econstructor; eauto.
Qed.
Lemma before_new : forall C G x t, cnew C G -> newv (cover C G) x t -> newv (before C G x) x t.
Proof. intros C G x t N H. unfold newv, cover, before in *. destruct (C x) as [[u v]|] eqn:E; [|exact H]. destruct H as [H|H]; [discriminate H|]. injection H as ->. right. unfold cput. rewrite rid_eqb_refl. reflexivity. Qed.
Lemma cput_same : forall S x t, S x = Some t -> ceq S (cput S x t).
Proof. intros S x t E y. unfold cput. destruct (rid_eqb y x) eqn:Q; [apply rid_eqb_ok in Q as ->; exact E|reflexivity]. Qed.
Lemma ceq_refl : forall S, ceq S S.
Proof. intros S y. reflexivity. Qed.
Lemma sil : forall A call (o : outcome (list entry * A)) (o' : outcome (list entry * A)) lg lg' a a', (silent call -> mute o) -> (silent call -> mute o') -> o = Ok (lg, a) -> o' = Ok (lg', a') -> silent call -> lg' = lg.
Proof. intros A call o o' lg lg' a a' M M' -> -> Q. specialize (M Q). specialize (M' Q). cbn [mute] in *. congruence. Qed.
Theorem pstmt_ok : forall C G s S1 C' l, cok C -> cnew C G -> xsty (cover C G) s S1 -> is_for s = false -> pstmt C s = Some (C', l) -> pstep C C' G S1 s l.
Proof.
  intros C G s S1 C' l K N X F P. remember (cover C G) as CG eqn:ECG in X. destruct X as [S x t e Gt NV Y|S x t p e te Ex Gt Xp Y|S e err Y|S fmt args ts Y|S x t em args ts NV Y Em|S S1 x a b body NV Ya Yb Yl]; [| | | | |discriminate F]; subst S; cbn [pstmt] in P.
  - (* definition *)
    destruct (pexp C e) as [e'|] eqn:Ee; [|discriminate P]. assert (RES : Some (invalidate C x (SDef x t e')) = Some (C', l) -> pstep C C' G (cput (cover C G) x t) (SDef x t e) l).
    { intros H. assert (Hi : invalidate C x (SDef x t e') = (C', l)) by congruence. pose proof (proj1 ty_sub _ _ _ Y _ (sub_before C G x N)) as Y2. destruct (pexp_ok C _ K e t e' Y2 Ee) as [A [[B B'] V]]. pose proof (residual C G x (SDef x t e) (SDef x t e') t (cput (cover C G) x t) K N eq_refl eq_refl B' eq_refl (ceq_refl _) NV) as R. rewrite Hi in R. cbn [fst snd] in R. apply R; clear R.
      - exists (cput (before C G x) x t). split; [|apply ceq_refl]. constructor; [exact Gt|exact (before_new _ _ _ _ N NV)|exact A].
      - intros call r Kc Rk _ lg r1 E. rewrite u_sdef in *. apply ok_inv in E as [[la v] [Ea E]]. cbn [fst snd] in E. injection E as <- <-. destruct (V call r Kc Rk _ _ Ea) as [lg' [E' Q]]. exists lg', v. rewrite E'. split; [reflexivity|]. split; [exact Q|]. split; [|intros y; reflexivity]. apply (sil _ call _ _ la lg' v v (fun Q => silent_eval call Q (ov C r) e) (fun Q => silent_eval call Q r e') Ea E').
      - intros call r Q Kc Rk _ E. rewrite u_sdef in *. pose proof (silent_eval call Q (ov C r) e) as M. destruct (seval call (ov C r) e) as [[]| |]; [discriminate E|contradiction|discriminate E]. }
    destruct (isc e'); [|exact (RES P)]. destruct (cval e') as [v|] eqn:Cv; [|discriminate P]. destruct (C x) as [[]|] eqn:Cx; [discriminate P|]. injection P as <- <-. destruct (pexp_ok C G K e t e' Y Ee) as [A [_ V]]. pose proof (proj1 cval_typed _ _ _ A _ Cv) as Tv. destruct (known C G x t v K N NV Gt Tv) as [K' [N' [Q' O']]].
    exists G. split; [constructor|]. split; [exact K'|]. split; [exact N'|]. split; [exact Q'|]. split; [intros y Ne; split; [exact (O' y Ne)|reflexivity]|]. split; [constructor|]. split.
    + intros call rho Kc R lg rho1 E. rewrite u_sdef in E. apply ok_inv in E as [[la u] [Ea E]]. cbn [fst snd] in E. injection E as <- <-. destruct (V call rho Kc R _ _ Ea) as [lg' [E' Q]]. rewrite (cval_eval _ _ Cv) in E'. injection E' as <- <-. exists [], rho. split; [reflexivity|]. split; [apply sub_empty|]. split; [intros Sc; symmetry; exact (mute_ok _ _ _ _ (silent_eval call Sc (ov C rho) e) Ea)|]. split; [apply ov_put|reflexivity].
    + intros call rho Q Kc R E. rewrite u_sdef in E. pose proof (silent_eval call Q (ov C rho) e) as M. destruct (seval call (ov C rho) e) as [[]| |]; [discriminate E|contradiction|discriminate E].
  - (* assignment to a part *)
    destruct (ppath C p) as [p'|] eqn:Ep; [|discriminate P]. destruct (pexp C e) as [e'|] eqn:Ee; [|discriminate P].
    assert (U : forall call rho, sexec call rho (SSet x t p e) = obnd (seval call rho e) (fun a => obnd (ssteps call rho p) (fun ps => obnd (of_opt (rho x)) (fun v => obnd (of_put (put (snd ps) (snd a) v)) (fun v' => Ok (fst a ++ fst ps, rupd rho x v')))))) by reflexivity.
    assert (RES : Some (invalidate C x (SSet x t p' e')) = Some (C', l) -> pstep C C' G (cover C G) (SSet x t p e) l).
    { intros H. assert (Hi : invalidate C x (SSet x t p' e') = (C', l)) by congruence. pose proof (sub_before C G x N) as SB. destruct (pexp_ok C _ K e te e' (proj1 ty_sub _ _ _ Y _ SB) Ee) as [A [[B B'] V]]. destruct (ppath_ok C _ K t p te p' (path_sub _ _ _ _ Xp _ SB) Ep) as [A2 [B2 V2]].
      assert (NV : newv (cover C G) x t) by (right; exact Ex). assert (Bx : before C G x x = Some t) by (unfold before; unfold cover in Ex; destruct (C x) as [[u w]|]; [injection Ex as ->; unfold cput; rewrite rid_eqb_refl; reflexivity|exact Ex]).
      pose proof (residual C G x (SSet x t p e) (SSet x t p' e') t (cover C G) K N eq_refl eq_refl ltac:(cbn [sids]; apply incl_app_app; assumption) eq_refl) as R. rewrite Hi in R. cbn [fst snd] in R. apply R; clear R.
      - intros y. symmetry. apply (cput_same (cover C G) x t Ex).
      - exact NV.
      - exists (before C G x). split; [apply XSet with te; assumption|apply cput_same; exact Bx].
      - intros call r Kc Rk Ox lg r1 E. rewrite U in E. apply ok_inv in E as [[la v] [Ea E]]. apply ok_inv in E as [[lp ps] [Es E]]. apply ok_inv in E as [o [Eo E]]. apply ok_inv in E as [v' [Ev E]]. cbn [fst snd] in *. injection E as <- <-. destruct (V call r Kc Rk _ _ Ea) as [l1 [E1 Q1]]. destruct (V2 call r Kc Rk _ _ Es) as [l2 [E2 Q2]]. exists (l1 ++ l2), v'. rewrite Ox in Eo. cbn [sexec]. rewrite E1. cbn [obnd fst snd]. rewrite E2. cbn [obnd fst snd]. rewrite Eo. cbn [obnd]. rewrite Ev. cbn [obnd]. split; [reflexivity|]. split; [apply sub_app; assumption|]. split; [|intros y; reflexivity]. intros Sc. rewrite (mute_ok _ _ _ _ (silent_eval call Sc (ov C r) e) Ea), (mute_ok _ _ _ _ (silent_eval call Sc r e') E1), (mute_ok _ _ _ _ (silent_steps call Sc (ov C r) p) Es), (mute_ok _ _ _ _ (silent_steps call Sc r p') E2). reflexivity.
      - intros call r Sc Kc Rk Ox E. rewrite U in E. pose proof (silent_eval call Sc (ov C r) e) as M. destruct (seval call (ov C r) e) as [[la v]| |] eqn:Ea; [|contradiction|discriminate E]. pose proof (silent_steps call Sc (ov C r) p) as M2. cbn [obnd fst snd] in E. destruct (ssteps call (ov C r) p) as [[lp ps]| |] eqn:Es; [|contradiction|discriminate E]. cbn [obnd fst snd] in E. rewrite Ox in E. destruct (V call r Kc Rk _ _ Ea) as [l1 [E1 Q1]]. destruct (V2 call r Kc Rk _ _ Es) as [l2 [E2 Q2]]. cbn [sexec]. rewrite E1. cbn [obnd fst snd]. rewrite E2. cbn [obnd fst snd]. destruct (r x) as [o|]; [|discriminate E]. cbn [of_opt obnd] in *. destruct (put ps v o); [discriminate E|reflexivity]. }
    destruct (isc e'); [|exact (RES P)]. destruct (cval e') as [v|] eqn:Cv; [|discriminate P]. destruct (C x) as [[u c]|] eqn:Cx; [|exact (RES P)]. destruct (lsteps p') as [ps|] eqn:Ls; [|exact (RES P)]. destruct (put ps v c) as [c'|] eqn:Pt; [|exact (RES P)]. injection P as <- <-. clear RES.
    assert (u = t) by (unfold cover in Ex; rewrite Cx in Ex; congruence). subst u. destruct (pexp_ok C G K e te e' Y Ee) as [A [_ V]]. destruct (ppath_ok C G K t p te p' Xp Ep) as [A2 [_ V2]]. pose proof (put_typed _ _ _ _ _ _ (lsteps_ty _ _ _ _ A2 _ Ls) (K _ _ _ Cx) (proj1 cval_typed _ _ _ A _ Cv) Pt) as Tv. destruct (known C G x t c' K N ltac:(right; exact Ex) Gt Tv) as [K' [N' [Q' O']]].
    assert (EV : forall call rho la w lp qs, call_ok call -> rok G rho -> seval call (ov C rho) e = Ok (la, w) -> ssteps call (ov C rho) p = Ok (lp, qs) -> w = v /\ qs = ps).
    { intros call rho la w lp qs Kc R Ea Es. destruct (V call rho Kc R _ _ Ea) as [l1 [E1 Q1]]. destruct (V2 call rho Kc R _ _ Es) as [l2 [E2 Q2]]. rewrite (cval_eval _ _ Cv) in E1. rewrite (lsteps_ok _ _ Ls) in E2. split; congruence. }
    assert (OX : forall rho, ov C rho x = Some c) by (intros rho; unfold ov; rewrite Cx; reflexivity).
    exists G. split; [constructor|]. split; [exact K'|]. split; [exact N'|]. split; [intros y; rewrite (Q' y); symmetry; apply (cput_same (cover C G) x t Ex)|]. split; [intros y Ne; split; [exact (O' y Ne)|reflexivity]|]. split; [constructor|]. split.
    + intros call rho Kc R lg rho1 E. rewrite U in E. apply ok_inv in E as [[la w] [Ea E]]. apply ok_inv in E as [[lp qs] [Es E]]. destruct (EV _ _ _ _ _ _ Kc R Ea Es) as [-> ->]. rewrite OX in E. cbn [of_opt obnd fst snd] in E. rewrite Pt in E. cbn [of_put obnd] in E. injection E as <- <-. exists [], rho. split; [reflexivity|]. split; [apply sub_empty|]. split; [|split; [apply ov_put|reflexivity]]. intros Sc. rewrite (mute_ok _ _ _ _ (silent_eval call Sc (ov C rho) e) Ea), (mute_ok _ _ _ _ (silent_steps call Sc (ov C rho) p) Es). reflexivity.
    + intros call rho Sc Kc R E. rewrite U in E. pose proof (silent_eval call Sc (ov C rho) e) as M. destruct (seval call (ov C rho) e) as [[la w]| |] eqn:Ea; [|contradiction|discriminate E]. pose proof (silent_steps call Sc (ov C rho) p) as M2. cbn [obnd fst snd] in E. destruct (ssteps call (ov C rho) p) as [[lp qs]| |] eqn:Es; [|contradiction|discriminate E]. destruct (EV _ _ _ _ _ _ Kc R Ea Es) as [-> ->]. rewrite OX in E. cbn [of_opt obnd fst snd] in E. rewrite Pt in E. discriminate E.
  - (* assertion *)
    assert (U : forall call rho e err, sexec call rho (SAssert e err) = obnd (seval call rho e) (fun a => match snd a with VBool true => Ok (fst a, rho) | VBool false => Failed | _ => Stuck end)) by reflexivity.
    destruct (pexp C e) as [e'|] eqn:Ee; [|discriminate P]. destruct (pexp_ok C G K e _ e' Y Ee) as [A [[B B'] V]]. destruct (bnum e') as [[]|] eqn:Be; [|discriminate P|].
    + injection P as <- <-. apply bnum_ok in Be as ->. exists G. split; [constructor|]. split; [exact K|]. split; [exact N|]. split; [apply ceq_refl|]. split; [intros y _; auto|]. split; [constructor|]. split.
      * intros call rho Kc R lg rho1 E. rewrite U in E. apply ok_inv in E as [[la v] [Ea E]]. cbn [fst snd] in E. destruct v as [| |[]| | |]; try discriminate E. injection E as <- <-. exists [], rho. split; [reflexivity|]. split; [apply sub_empty|]. split; [intros Sc; symmetry; exact (mute_ok _ _ _ _ (silent_eval call Sc (ov C rho) e) Ea)|]. split; [intros y; reflexivity|reflexivity].
      * intros call rho Sc Kc R E. rewrite U in E. pose proof (silent_eval call Sc (ov C rho) e) as M. destruct (seval call (ov C rho) e) as [[la v]| |] eqn:Ea; [|contradiction|discriminate E]. destruct (V call rho Kc R _ _ Ea) as [l1 [E1 _]]. apply ev_b in E1 as ->. discriminate E.
    + injection P as <- <-. exists G. split; [apply XScons with G; [constructor; exact A|constructor]|]. split; [exact K|]. split; [exact N|]. split; [apply ceq_refl|]. split; [intros y _; auto|]. split; [constructor; [split; [reflexivity|split; [exact B'|reflexivity]]|constructor]|]. split.
      * intros call rho Kc R lg rho1 E. rewrite U in E. apply ok_inv in E as [[la v] [Ea E]]. cbn [fst snd] in E. destruct v as [| |[]| | |]; try discriminate E. injection E as <- <-. destruct (V call rho Kc R _ _ Ea) as [l1 [E1 Q1]]. exists l1, rho. rewrite u_ex_cons, U, E1. cbn [obnd fst snd sexecs exec_list]. rewrite app_nil_r. split; [reflexivity|]. split; [exact Q1|]. split; [apply (sil _ call _ _ la l1 _ _ (fun Q => silent_eval call Q (ov C rho) e) (fun Q => silent_eval call Q rho e') Ea E1)|]. split; [intros y; reflexivity|reflexivity].
      * intros call rho Sc Kc R E. rewrite U in E. pose proof (silent_eval call Sc (ov C rho) e) as M. destruct (seval call (ov C rho) e) as [[la v]| |] eqn:Ea; [|contradiction|discriminate E]. destruct (V call rho Kc R _ _ Ea) as [l1 [E1 _]]. rewrite u_ex_cons, U, E1. cbn [obnd fst snd] in *. destruct v as [| |[]| | |]; try discriminate E. reflexivity.
  - (* log *)
    assert (U : forall call rho fmt args, sexec call rho (SLog fmt args) = obnd (sevals call rho args) (fun a => Ok (fst a ++ [(fmt, snd a)], rho))) by reflexivity.
    destruct (pexps C args) as [es|] eqn:Ee; [|discriminate P]. injection P as <- <-. destruct (pexps_ok C G K args ts es Y Ee) as [A [[B B'] V]]. exists G. split; [apply XScons with G; [apply XLog with ts; exact A|constructor]|]. split; [exact K|]. split; [exact N|]. split; [apply ceq_refl|]. split; [intros y _; auto|]. split; [constructor; [split; [reflexivity|split; [exact B'|reflexivity]]|constructor]|]. split.
    + intros call rho Kc R lg rho1 E. rewrite U in E. apply ok_inv in E as [[la v] [Ea E]]. cbn [fst snd] in E. injection E as <- <-. destruct (V call rho Kc R _ _ Ea) as [l1 [E1 Q1]]. exists (l1 ++ [(fmt, v)]), rho. rewrite u_ex_cons, U, E1. cbn [obnd fst snd sexecs exec_list]. rewrite app_nil_r. split; [reflexivity|]. split; [apply sub_app; [exact Q1|apply sublog_refl]|]. split; [intros Sc; f_equal; exact (sil _ call _ _ la l1 _ _ (fun Q => silent_evals call Q (ov C rho) args) (fun Q => silent_evals call Q rho es) Ea E1 Sc)|]. split; [intros y; reflexivity|reflexivity].
    + intros call rho Sc Kc R E. rewrite U in E. pose proof (silent_evals call Sc (ov C rho) args) as M. destruct (sevals call (ov C rho) args) as [[la v]| |]; [discriminate E|contradiction|discriminate E].
  - (* built-in function *)
    assert (U : forall call rho args, sexec call rho (SEmb x t em args) = obnd (sevals call rho args) (fun a => obnd (sem_emb em (snd a)) (fun v => Ok (fst a, rupd rho x v)))) by reflexivity.
    destruct (pexps C args) as [es|] eqn:Ee; [|discriminate P]. pose proof (emb_good _ _ _ Em) as Gt.
    assert (RES : Some (invalidate C x (SEmb x t em es)) = Some (C', l) -> pstep C C' G (cput (cover C G) x t) (SEmb x t em args) l).
    { intros H. assert (Hi : invalidate C x (SEmb x t em es) = (C', l)) by congruence. pose proof (proj2 ty_sub _ _ _ Y _ (sub_before C G x N)) as Y2. destruct (pexps_ok C _ K args ts es Y2 Ee) as [A [[B B'] V]]. pose proof (residual C G x (SEmb x t em args) (SEmb x t em es) t (cput (cover C G) x t) K N eq_refl eq_refl B' eq_refl (ceq_refl _) NV) as R. rewrite Hi in R. cbn [fst snd] in R. apply R; clear R.
      - exists (cput (before C G x) x t). split; [|apply ceq_refl]. apply XEmb with ts; [exact (before_new _ _ _ _ N NV)|exact A|exact Em].
      - intros call r Kc Rk _ lg r1 E. rewrite U in *. apply ok_inv in E as [[la vs] [Ea E]]. apply ok_inv in E as [v [Ev E]]. cbn [fst snd] in *. injection E as <- <-. destruct (V call r Kc Rk _ _ Ea) as [lg' [E' Q]]. exists lg', v. rewrite E'. cbn [obnd fst snd]. rewrite Ev. split; [reflexivity|]. split; [exact Q|]. split; [|intros y; reflexivity]. apply (sil _ call _ _ la lg' vs vs (fun Q => silent_evals call Q (ov C r) args) (fun Q => silent_evals call Q r es) Ea E').
      - intros call r Q Kc Rk _ E. rewrite U in *. pose proof (silent_evals call Q (ov C r) args) as M. destruct (sevals call (ov C r) args) as [[la vs]| |] eqn:Ea; [|contradiction|discriminate E]. destruct (V call r Kc Rk _ _ Ea) as [lg' [E' _]]. rewrite E'. cbn [obnd fst snd] in *. destruct (sem_emb em vs); [discriminate E|reflexivity|discriminate E]. }
    destruct (forallb isc es); [|exact (RES P)]. destruct (opt_list (map cval es)) as [vs|] eqn:Cv; [|discriminate P]. destruct (pemb em vs) as [[v|]|] eqn:Pe; [|exact (RES P)|discriminate P]. injection P as <- <-. clear RES. destruct (pexps_ok C G K args ts es Y Ee) as [A [_ V]]. pose proof (proj2 cval_typed _ _ _ A _ Cv) as Tvs. pose proof (pemb_ok _ _ _ _ _ Em Tvs Pe) as Sem. pose proof (emb_typed _ _ _ _ _ Em Tvs Sem) as Tv. destruct (known C G x t v K N NV Gt Tv) as [K' [N' [Q' O']]].
    assert (EV : forall call rho la ws, call_ok call -> rok G rho -> sevals call (ov C rho) args = Ok (la, ws) -> ws = vs).
    { intros call rho la ws Kc R Ea. destruct (V call rho Kc R _ _ Ea) as [l1 [E1 _]]. rewrite (evals_nil call rho es vs) in E1; [congruence|]. apply opt_list_f2 in Cv. apply (f2_imp _ _ _ _ _ _ Cv). apply Forall_forall. intros e0 _ v0 H0. exact (cval_eval _ _ H0 call rho). }
    exists G. split; [constructor|]. split; [exact K'|]. split; [exact N'|]. split; [exact Q'|]. split; [intros y Ne; split; [exact (O' y Ne)|reflexivity]|]. split; [constructor|]. split.
    + intros call rho Kc R lg rho1 E. rewrite U in E. apply ok_inv in E as [[la ws] [Ea E]]. rewrite (EV _ _ _ _ Kc R Ea) in E. cbn [fst snd] in E. rewrite Sem in E. cbn [obnd] in E. injection E as <- <-. exists [], rho. split; [reflexivity|]. split; [apply sub_empty|]. split; [intros Sc; symmetry; exact (mute_ok _ _ _ _ (silent_evals call Sc (ov C rho) args) Ea)|]. split; [apply ov_put|reflexivity].
    + intros call rho Sc Kc R E. rewrite U in E. pose proof (silent_evals call Sc (ov C rho) args) as M. destruct (sevals call (ov C rho) args) as [[la ws]| |] eqn:Ea; [|contradiction|discriminate E]. rewrite (EV _ _ _ _ Kc R Ea) in E. cbn [obnd fst snd] in E. rewrite Sem in E. discriminate E.
Qed.

(** ** Programs *)
Definition no_for (ss : list sstmt) : Prop := Forall (fun s => is_for s = false) ss.
Theorem pstmts_ok : forall ss C G S1 C' l, cok C -> cnew C G -> xstys (cover C G) ss S1 -> no_for ss -> pstmts C ss = Some (C', l) ->
  exists G', xstys G l G' /\ cok C' /\ cnew C' G' /\ ceq (cover C' G') S1 /\ no_for l /\
  (forall call rho, call_ok call -> rok G rho -> forall lg rho1, sexecs call (ov C rho) ss = Ok (lg, rho1) -> exists lg' rho', sexecs call rho l = Ok (lg', rho') /\ sublog lg' lg /\ (silent call -> lg' = lg) /\ req (ov C' rho') rho1) /\
  (forall call rho, silent call -> call_ok call -> rok G rho -> sexecs call (ov C rho) ss = Failed -> sexecs call rho l = Failed).
Proof.
  induction ss as [|s ss IH]; intros C G S1 C' l K N X F P; cbn [pstmts] in P.
  - injection P as <- <-. inversion X; subst. exists G. split; [constructor|]. split; [exact K|]. split; [exact N|]. split; [apply ceq_refl|]. split; [constructor|]. split.
    + intros call rho Kc R lg rho1 E. injection E as <- <-. exists [], rho. split; [reflexivity|]. split; [constructor|]. split; [reflexivity|intros y; reflexivity].
    + intros call rho Sc Kc R E. discriminate E.
  - destruct (pstmt C s) as [[C1 l1]|] eqn:Ps; [|discriminate P]. destruct (pstmts C1 ss) as [[C2 l2]|] eqn:Pr; [|discriminate P]. injection P as <- <-. inversion X as [|S0 Sa Sb s0 r Xs Xr]; subst. inversion F as [|? ? F1 F2]; subst.
    destruct (pstmt_ok C G s Sa C1 l1 K N Xs F1 Ps) as [G1 [Y1 [K1 [N1 [Q1 [_ [I1 [Sim1 Fl1]]]]]]]]. destruct (proj2 stys_ceq _ _ _ Xr (cover C1 G1) ltac:(intros y; symmetry; apply Q1)) as [Sb' [Xr' Qb]]. destruct (IH C1 G1 Sb' C2 l2 K1 N1 Xr' F2 Pr) as [G2 [Y2 [K2 [N2 [Q2 [NF [Sim2 Fl2]]]]]]].
    assert (app_ex : forall call rho a b, sexecs call rho (a ++ b) = obnd (sexecs call rho a) (fun r => obnd (sexecs call (snd r) b) (fun r2 => Ok (fst r ++ fst r2, snd r2)))).
    { clear. intros call rho a b. revert rho. induction a as [|s a IH]; intros rho; [cbn [app sexecs exec_list obnd fst snd]; change (exec_list (sexec call)) with (sexecs call); destruct (sexecs call rho b) as [[]| |]; reflexivity|]. cbn [app]. rewrite !u_ex_cons. destruct (sexec call rho s) as [[l r]| |]; [|reflexivity|reflexivity]. cbn [obnd fst snd]. rewrite IH. destruct (sexecs call r a) as [[l2 r2]| |]; [|reflexivity|reflexivity]. cbn [obnd fst snd]. destruct (sexecs call r2 b) as [[l3 r3]| |]; [|reflexivity|reflexivity]. cbn [obnd fst snd]. rewrite app_assoc. reflexivity. }
    assert (app_ty : forall G a b G1 G2, xstys G a G1 -> xstys G1 b G2 -> xstys G (a ++ b) G2). { clear. intros G a. revert G. induction a as [|s a IH]; intros G b G1 G2 A B; inversion A; subst; [exact B|]. cbn [app]. eapply XScons; [eassumption|]. eapply IH; eassumption. }
    exists G2. split; [exact (app_ty _ _ _ _ _ Y1 Y2)|]. split; [exact K2|]. split; [exact N2|]. split; [intros y; rewrite (Q2 y); symmetry; apply Qb|]. split; [apply Forall_app; split; [|exact NF]; apply (Forall_impl _ (fun s H => proj2 (proj2 H)) I1)|]. split.
    + intros call rho Kc R lg rho1 E. rewrite u_ex_cons in E. apply ok_inv in E as [[la ra] [Ea E]]. apply ok_inv in E as [[lb rb] [Eb E]]. cbn [fst snd] in *. injection E as <- <-. destruct (Sim1 call rho Kc R _ _ Ea) as [la' [ra' [E1 [U1 [T1 [R1 _]]]]]]. pose proof (proj2 (exec_typed call Kc) _ _ _ Y1 _ _ _ R E1) as Rk1. destruct (oeq_ok _ _ _ _ (execs_ext call ss ra (ov C1 ra') ltac:(intros y; symmetry; apply R1)) Eb) as [rb2 [Eb2 Rb]]. destruct (Sim2 call ra' Kc Rk1 _ _ Eb2) as [lb' [rb' [E2 [S2 [T2 R2]]]]].
      exists (la' ++ lb'), rb'. rewrite app_ex, E1. cbn [obnd fst snd]. rewrite E2. split; [reflexivity|]. split; [apply sub_app; assumption|]. split; [intros Sc; rewrite (T1 Sc), (T2 Sc); reflexivity|]. intros y. rewrite (R2 y). symmetry. apply Rb.
    + intros call rho Sc Kc R E. rewrite app_ex. rewrite u_ex_cons in E. destruct (sexec call (ov C rho) s) as [[la ra]| |] eqn:Ea; [|rewrite (Fl1 call rho Sc Kc R Ea); reflexivity|discriminate E]. destruct (Sim1 call rho Kc R _ _ Ea) as [la' [ra' [E1 [_ [_ [R1 _]]]]]]. rewrite E1. cbn [obnd fst snd] in *. pose proof (proj2 (exec_typed call Kc) _ _ _ Y1 _ _ _ R E1) as Rk1.
      destruct (sexecs call ra ss) as [[lb rb]| |] eqn:Eb; [discriminate E| |discriminate E]. pose proof (oeq_failed _ _ (execs_ext call ss ra (ov C1 ra') ltac:(intros y; symmetry; apply R1)) Eb) as Eb2. rewrite (Fl2 call ra' Sc Kc Rk1 Eb2). reflexivity.
Qed.
(** a program whose arguments, statements and result have the types it says *)
Definition src_typed (p : sprog) : Prop := Forall good_ty (map (fun q => snd (fst q)) (sargs p)) /\ exists S, xstys (cbind (fun _ => None) (map fst (sargs p))) (sbody p) S /\ xty S (sret p) (sretty p).
Lemma empty_cover : forall G, ceq G (cover (fun _ => None) G).
Proof. intros G y. reflexivity. Qed.
Theorem propagate_ok : forall p q, src_typed p -> no_for (sbody p) -> propagate_typed p = Some q -> src_typed q /\ sargs q = sargs p /\ sretty q = sretty p /\ no_for (sbody q) /\
  forall call vs, call_ok call -> Forall2 has_type vs (map (fun q => snd (fst q)) (sargs p)) ->
  (forall v lg, srun call p vs = Ok (v, lg) -> exists lg', srun call q vs = Ok (v, lg') /\ sublog lg' lg /\ (silent call -> lg' = lg)) /\ (silent call -> srun call p vs = Failed -> srun call q vs = Failed).
Proof.
  intros p q [Ga [S [X Xr]]] F P. unfold propagate_typed in P. destruct (pstmts (fun _ => None) (sbody p)) as [[C l]|] eqn:Ps; [|discriminate P]. destruct (pexp C (sret p)) as [e|] eqn:Pe; [|discriminate P]. injection P as <-. set (G := cbind (fun _ => None) (map fst (sargs p))) in *.
  destruct (proj2 stys_ceq _ _ _ X (cover (fun _ => None) G) (empty_cover G)) as [S' [X' Q']]. destruct (pstmts_ok (sbody p) (fun _ => None) G S' C l ltac:(intros y t v H; discriminate H) ltac:(intros y t v H; discriminate H) X' F Ps) as [G' [Y [K [N [Q [NF [Sim Fl]]]]]]].
  assert (Xr' : xty (cover C G') (sret p) (sretty p)) by (apply (proj1 ty_sub _ _ _ Xr); intros y t E; rewrite Q, <- Q'; exact E). destruct (pexp_ok C G' K _ _ _ Xr' Pe) as [Ye [_ V]]. cbn [sargs sbody sret sretty]. split; [split; [exact Ga|exists G'; split; assumption]|]. split; [reflexivity|]. split; [reflexivity|]. split; [exact NF|]. intros call vs Kc T. set (r0 := rbind (fun _ => None) (map (fun q => fst (fst q)) (sargs p)) vs).
  assert (R0 : rok G r0). { unfold G, r0. replace (map (fun q : rid * cty * bool => fst (fst q)) (sargs p)) with (map (@fst rid cty) (map fst (sargs p))) by apply map_map. apply rbind_ok; [intros y t H; discriminate H|]. rewrite map_map. exact T. }
  unfold srun. cbn [sargs sbody sret sretty]. fold r0. split.
  - intros v lg E. apply ok_inv in E as [[la ra] [Ea E]]. apply ok_inv in E as [[lb b] [Eb E]]. cbn [fst snd] in *. injection E as <- <-. destruct (Sim call r0 Kc R0 la ra Ea) as [la' [ra' [E1 [U1 [T1 R1]]]]]. rewrite E1. cbn [obnd fst snd]. rewrite <- (eval_ext call _ _ R1) in Eb. pose proof (proj2 (exec_typed call Kc) _ _ _ Y _ _ _ R0 E1) as Rk. destruct (V call ra' Kc Rk _ _ Eb) as [lb' [E2 S2]]. rewrite E2. cbn [obnd fst snd]. exists (la' ++ lb'). split; [reflexivity|]. split; [apply sub_app; assumption|]. intros Sc. rewrite (T1 Sc). f_equal. exact (sil _ call _ _ lb lb' _ _ (fun Q => silent_eval call Q _ _) (fun Q => silent_eval call Q _ _) Eb E2 Sc).
  - intros Sc E. destruct (sexecs call r0 (sbody p)) as [[la ra]| |] eqn:Ea; [|rewrite (Fl call r0 Sc Kc R0 Ea); reflexivity|discriminate E]. cbn [obnd fst snd] in E. pose proof (silent_eval call Sc ra (sret p)) as M. destruct (seval call ra (sret p)) as [[lb b]| |]; [discriminate E|contradiction|discriminate E].
Qed.
End TPropProg.
