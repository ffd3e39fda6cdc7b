(** Reduced expressions: invariants, propagation of expressions in plain positions, lists of expressions. *)
From Coq Require Import String Ascii.
From Coq Require Import ZArith NArith List Bool Lia.
From Verif Require Import PField Interp Bits Zir CgProg UintOpt Str Abi Typed Flatten FlattenOps FlattenSim FlattenRun Writes Redefine WritesVal WritesExp ZPropStmt Src SrcTy TProp TPropOk TPropArr TPropOps TPropExp TPropStmt TPropProg Reduce ReduceRen.
Import ListNotations.
Open Scope Z_scope.

Section ReduceExp.
Context {PF : PrimeField}.

(** the variables which are not known constants *)
Definition live (C : consts) (G : rctx) : rctx := fun y => match C y with Some _ => None | None => G y end.
Lemma live_cover : forall C G, subctx (live C G) (cover C G).
Proof. intros C G y t. unfold live, cover. destruct (C y); [discriminate|auto]. Qed.
Lemma live_sub_g : forall C G, subctx (live C G) G.
Proof. intros C G y t. unfold live. destruct (C y); [discriminate|auto]. Qed.
Lemma live_ov : forall C G rho y t, live C G y = Some t -> ov C rho y = rho y.
Proof. intros C G rho y t. unfold live, ov. destruct (C y) as [[u v]|]; [discriminate|reflexivity]. Qed.
Lemma pexp_live : forall C G, cok C -> forall e t e', xty (cover C G) e t -> pexp C e = Some e' -> xty (live C G) e' t /\ fewer e e' /\
  forall call rho, call_ok call -> rok G rho -> forall lg v, seval call (ov C rho) e = Ok (lg, v) -> exists lg', seval call rho e' = Ok (lg', v) /\ sublog lg' lg.
Proof.
  intros C G K e t e' X E. assert (X' : xty (cover C (live C G)) e t) by (apply (proj1 ty_sub _ _ _ X); intros y u; unfold cover, live; destruct (C y) as [[]|]; auto).
  destruct (pexp_ok C (live C G) K e t e' X' E) as [A [B D]]. split; [exact A|]. split; [exact B|]. intros call rho Kc R. apply D; [exact Kc|]. exact (rok_sub _ _ _ (live_sub_g C G) R).
Qed.
Lemma nocalls_mute : forall call rho e, nocalls e = true -> mute (seval call rho e).
Proof. intros call rho e N. rewrite (nocalls_eval call nocall rho e N). apply silent_eval. exact nocall_silent. Qed.
Lemma nocalls_mutes : forall call rho l, forallb nocalls l = true -> mute (sevals call rho l).
Proof. intros call rho l N. apply mute_list. apply Forall_forall. intros e I. rewrite forallb_forall in N. apply nocalls_mute, N, I. Qed.
Definition exact_ev {A} (o o' : outcome (list entry * A)) : Prop := (forall r, o = Ok r -> o' = Ok r) /\ (o = Failed -> o' = Failed).
Lemma pexp_quiet : forall C G, cok C -> forall e t e', xty (cover C G) e t -> nocalls e = true -> pexp C e = Some e' -> forall call rho, call_ok call -> rok G rho -> exact_ev (seval call (ov C rho) e) (seval call rho e').
Proof.
  intros C G K e t e' X N E call rho Kc R. pose proof (nocalls_mute call (ov C rho) e N) as M. split.
  - intros [lg v] H. rewrite H in M. cbn [mute] in M. subst lg. destruct (pexp_live C G K e t e' X E) as [_ [_ D]]. destruct (D call rho Kc R _ _ H) as [lg' [H' Q]]. apply sub_nil_inv in Q. subst lg'. exact H'.
  - intros H. rewrite H in M. destruct M.
Qed.
Lemma pexps_exact : forall C G, cok C -> forall es, Forall (fun e => forall t e', xty (cover C G) e t -> plain e = true -> pexp C e = Some e' -> plain e' = true /\ forall call rho, call_ok call -> rok G rho -> exact_ev (seval call (ov C rho) e) (seval call rho e')) es ->
  forall ts es', xtys (cover C G) es ts -> forallb plain es = true -> opt_list (map (pexp C) es) = Some es' -> forallb plain es' = true /\ forall call rho, call_ok call -> rok G rho -> exact_ev (sevals call (ov C rho) es) (sevals call rho es').
Proof.
  intros C G K es H. induction H as [|e es He H IH]; intros ts es' X N E; cbn [map opt_list] in E.
  - injection E as <-. split; [reflexivity|]. intros call rho _ _. split; auto.
  - cbn [forallb] in N. apply andb_true_iff in N as [N1 N2]. inversion X as [|S0 e0 r t ts0 Xe Xr]; subst. destruct (pexp C e) as [d|] eqn:Ee; [|discriminate E]. destruct (opt_list (map (pexp C) es)) as [l|] eqn:El; [|discriminate E]. injection E as <-.
    destruct (He _ _ Xe N1 eq_refl) as [P1 Q1]. destruct (IH _ _ Xr N2 eq_refl) as [P2 Q2]. split; [cbn [forallb]; rewrite P1, P2; reflexivity|]. intros call rho Kc R. destruct (Q1 call rho Kc R) as [A1 B1]. destruct (Q2 call rho Kc R) as [A2 B2]. rewrite !u_el_cons. split.
    + intros [lg vs] Ev. apply ok_inv in Ev as [a [Ea Ev]]. apply ok_inv in Ev as [b [Eb Ev]]. rewrite (A1 _ Ea). cbn [obnd]. rewrite (A2 _ Eb). exact Ev.
    + intros Ev. destruct (seval call (ov C rho) e) as [a| |] eqn:Ea; [|rewrite (B1 eq_refl); reflexivity|discriminate Ev]. rewrite (A1 _ eq_refl). cbn [obnd] in *. destruct (sevals call (ov C rho) es) as [b| |] eqn:Eb; [discriminate Ev|rewrite (B2 eq_refl); reflexivity|discriminate Ev].
Qed.
Lemma pexp_exact : forall C G, cok C -> forall e t e', xty (cover C G) e t -> plain e = true -> pexp C e = Some e' -> plain e' = true /\ forall call rho, call_ok call -> rok G rho -> exact_ev (seval call (ov C rho) e) (seval call rho e').
Proof.
  intros C G K.
  assert (Q : forall e t e', nocalls e = true -> xty (cover C G) e t -> pexp C e = Some e' -> plain e' = true /\ forall call rho, call_ok call -> rok G rho -> exact_ev (seval call (ov C rho) e) (seval call rho e')).
  { intros e t e' N X E. split; [exact (nocalls_plain _ (pexp_nocalls C K e e' N E))|]. exact (pexp_quiet C G K e t e' X N E). }
  induction e as [t0 x|op args IH|k e cs IHe IHc|c x y IHc IHx IHy|ts t0 g a b IHa IHb] using sexp_ind'; intros t e' X N E; try (exact (Q _ t e' N X E)).
  cbn [plain] in N. apply andb_true_iff in N as [N1 N2]. remember (cover C G) as CG eqn:ECG. inversion X as [| | | |S0 ts1 t1 f1 gens args us Xg U Xa]; subst. cbn [pexp] in E. destruct (opt_list (map (pexp C) a)) as [a'|] eqn:Ea; [|discriminate E]. destruct (opt_list (map (pexp C) b)) as [b'|] eqn:Eb; [|discriminate E]. injection E as <-.
  assert (Na : forallb plain a = true) by (apply forallb_forall; intros d I; apply nocalls_plain; rewrite forallb_forall in N1; apply N1, I).
  destruct (pexps_exact C G K a IHa us a' Xg Na Ea) as [_ Qa]. destruct (pexps_exact C G K b IHb ts b' Xa N2 Eb) as [Pb Qb]. split.
  - cbn [plain]. rewrite Pb, andb_true_r. apply forallb_forall. intros d I. rewrite forallb_forall in N1. apply (proj1 (opt_list_f2 _ _ _ _ _)) in Ea. clear - Ea I N1 K. induction Ea as [|u w l l' H Hl IH]; [destruct I|]. destruct I as [<-|I]; [exact (pexp_nocalls C K _ _ (N1 _ (or_introl eq_refl)) H)|]. apply IH; [|exact I]. intros z J. apply N1. right. exact J.
  - intros call rho Kc R. destruct (Qa call rho Kc R) as [A1 B1]. destruct (Qb call rho Kc R) as [A2 B2]. rewrite !u_seval_call. split.
    + intros [lg v] Ev. apply ok_inv in Ev as [ra [Er Ev]]. rewrite (A1 _ Er). cbn [obnd]. apply ok_inv in Ev as [rb [Er2 Ev]]. rewrite (A2 _ Er2). exact Ev.
    + intros Ev. destruct (sevals call (ov C rho) a) as [ra| |] eqn:Er; [|rewrite (B1 eq_refl); reflexivity|discriminate Ev]. rewrite (A1 _ eq_refl). cbn [obnd] in *. destruct (sevals call (ov C rho) b) as [rb| |] eqn:Er2; [|rewrite (B2 eq_refl); reflexivity|discriminate Ev]. rewrite (A2 _ eq_refl). exact Ev.
Qed.

(** ** Invariants *)
Variable funs : ftable.
Hypothesis TO : table_ok funs.
Definition snocalls (s : sstmt) : bool :=
  match s with
  | SDef _ _ e | SAssert e _ => nocalls e
  | SSet _ _ p e => forallb (fun a => match a with SASel i => nocalls i | _ => true end) p && nocalls e
  | SLog _ args | SEmb _ _ _ args => forallb nocalls args
  | SFor _ _ _ _ => false
  end.
Definition Inv (L : nat) (C : consts) (G : rctx) : Prop := cok C /\ cnew C G /\ forall y, (L < rframe y)%nat -> C y = None /\ G y = None.
Definition kept (L : nat) (C C' : consts) (G G' : rctx) : Prop := forall y, (rframe y <= L)%nat -> C' y = C y /\ G' y = G y.
Definition Out (L : nat) (C : consts) (G : rctx) (L' : nat) (C' : consts) (G' : rctx) (b : list sstmt) : Prop :=
  (L <= L')%nat /\ Inv L' C' G' /\ xstys G b G' /\ kept L C C' G G' /\ forallb snocalls b = true.
(** the functions only have calls in plain positions *)
Variable ptable : Prop.
Definition dyn {A} (L : nat) (G : rctx) (ev : caller -> renv -> outcome (list entry * A)) (ev' : renv -> outcome (list entry * A)) (b : list sstmt) (ex : Prop) : Prop :=
  forall k rho, rok G rho ->
  (forall lg v, ev (scall funs k) rho = Ok (lg, v) -> exists lgb rho', sexecs nocall rho b = Ok (lgb, rho') /\ ev' rho' = Ok ([], v) /\ sublog lgb lg /\ (ex -> lgb = lg) /\ (forall y, (rframe y <= L)%nat -> rho' y = rho y)) /\
  (ex -> ev (scall funs k) rho = Failed -> sexecs nocall rho b = Failed).
Definition stable (fr : nat) (V : versions) (l : list rid) : Prop := forall y, In y l -> now fr V y = y.
(** the identifiers of what is left are old ones, or those of new frames *)
Definition born (L : nat) (l l' : list rid) : Prop := forall y, In y l' -> In y l \/ (L < rframe y)%nat.
Definition GoodF (fr : nat) (V : versions) (f : rfold) : Prop := forall L C G e t L' C' b e', Inv L C G -> (fr <= L)%nat -> xty (live C G) e t -> stable fr V (slids e) -> f L C e = Some (L', C', b, e') ->
  exists G', Out L C G L' C' G' b /\ xty (live C' G') e' t /\ nocalls e' = true /\ born L (eids e) (eids e') /\ dyn L G (fun call rho => seval call rho e) (fun rho => seval nocall rho e') b (ptable /\ plain e = true).
(** applied to an expression which has not been propagated *)
Definition GoodS (fr : nat) (V : versions) (f : rfold) : Prop := forall L C G e t L' C' b e', Inv L C G -> (fr <= L)%nat -> xty (cover C G) e t -> stable fr V (slids e) -> f L C e = Some (L', C', b, e') ->
  exists G', Out L C G L' C' G' b /\ xty (live C' G') e' t /\ nocalls e' = true /\ born L (eids e) (eids e') /\ dyn L G (fun call rho => seval call (ov C rho) e) (fun rho => seval nocall rho e') b (ptable /\ plain e = true).
Lemma live_frame : forall L C G y t, Inv L C G -> live C G y = Some t -> (rframe y <= L)%nat.
Proof. intros L C G y t [_ [_ I]] H. destruct (Nat.le_gt_cases (rframe y) L) as [Q|Q]; [exact Q|]. destruct (I y Q) as [A B]. unfold live in H. rewrite A, B in H. discriminate H. Qed.
Lemma cover_frame : forall L C G y t, Inv L C G -> cover C G y = Some t -> (rframe y <= L)%nat.
Proof. intros L C G y t [_ [_ I]] H. destruct (Nat.le_gt_cases (rframe y) L) as [Q|Q]; [exact Q|]. destruct (I y Q) as [A B]. unfold cover in H. rewrite A, B in H. discriminate H. Qed.
Lemma live_kept : forall L C G C' G', Inv L C G -> kept L C C' G G' -> subctx (live C G) (live C' G').
Proof. intros L C G C' G' I K y t H. destruct (K y (live_frame _ _ _ _ _ I H)) as [A B]. unfold live in *. rewrite A, B. exact H. Qed.
Lemma cover_kept : forall L C G C' G', Inv L C G -> kept L C C' G G' -> subctx (cover C G) (cover C' G').
Proof. intros L C G C' G' I K y t H. destruct (K y (cover_frame _ _ _ _ _ I H)) as [A B]. unfold cover in *. rewrite A, B. exact H. Qed.
Lemma kept_trans : forall L L1 C C1 C2 G G1 G2, (L <= L1)%nat -> kept L C C1 G G1 -> kept L1 C1 C2 G1 G2 -> kept L C C2 G G2.
Proof. intros L L1 C C1 C2 G G1 G2 H A B y Y. destruct (A y Y) as [A1 A2]. destruct (B y ltac:(lia)) as [B1 B2]. split; congruence. Qed.
Lemma app_ex : forall call rho a b, sexecs call rho (a ++ b) = obnd (sexecs call rho a) (fun r => obnd (sexecs call (snd r) b) (fun r2 => Ok (fst r ++ fst r2, snd r2))).
Proof. intros call rho a b. revert rho. induction a as [|s a IH]; intros rho; [cbn [app sexecs exec_list obnd fst snd]; change (exec_list (sexec call)) with (sexecs call); destruct (sexecs call rho b) as [[]| |]; reflexivity|]. cbn [app]. rewrite !u_ex_cons. destruct (sexec call rho s) as [[l r]| |]; [|reflexivity|reflexivity]. cbn [obnd fst snd]. rewrite IH. destruct (sexecs call r a) as [[l2 r2]| |]; [|reflexivity|reflexivity]. cbn [obnd fst snd]. destruct (sexecs call r2 b) as [[l3 r3]| |]; [|reflexivity|reflexivity]. cbn [obnd fst snd]. rewrite app_assoc. reflexivity. Qed.
Lemma app_ty : forall G a b G1 G2, xstys G a G1 -> xstys G1 b G2 -> xstys G (a ++ b) G2.
Proof. intros G a. revert G. induction a as [|s a IH]; intros G b G1 G2 A B; inversion A; subst; [exact B|]. cbn [app]. eapply XScons; [eassumption|]. eapply IH; eassumption. Qed.
Lemma run_app : forall call rho a b la ra lb rb, sexecs call rho a = Ok (la, ra) -> sexecs call ra b = Ok (lb, rb) -> sexecs call rho (a ++ b) = Ok (la ++ lb, rb).
Proof. intros call rho a b la ra lb rb A B. rewrite app_ex, A. cbn [obnd fst snd]. rewrite B. reflexivity. Qed.
Lemma fail_left : forall call rho a b, sexecs call rho a = Failed -> sexecs call rho (a ++ b) = Failed.
Proof. intros call rho a b A. rewrite app_ex, A. reflexivity. Qed.
Lemma fail_right : forall call rho a b la ra, sexecs call rho a = Ok (la, ra) -> sexecs call ra b = Failed -> sexecs call rho (a ++ b) = Failed.
Proof. intros call rho a b la ra A B. rewrite app_ex, A. cbn [obnd fst snd]. rewrite B. reflexivity. Qed.
Lemma out_refl : forall L C G, Inv L C G -> Out L C G L C G [].
Proof. intros L C G I. split; [lia|]. split; [exact I|]. split; [constructor|]. split; [intros y _; auto|reflexivity]. Qed.
Lemma out_trans : forall L C G L1 C1 G1 b1 L2 C2 G2 b2, Out L C G L1 C1 G1 b1 -> Out L1 C1 G1 L2 C2 G2 b2 -> Out L C G L2 C2 G2 (b1 ++ b2).
Proof.
  intros L C G L1 C1 G1 b1 L2 C2 G2 b2 [A [_ [X1 [K1 N1]]]] [B [I2 [X2 [K2 N2]]]]. split; [lia|]. split; [exact I2|]. split; [exact (app_ty _ _ _ _ _ X1 X2)|]. split; [exact (kept_trans _ _ _ _ _ _ _ _ A K1 K2)|]. rewrite forallb_app, N1, N2. reflexivity.
Qed.
Lemma rok_out : forall L C G L' C' G' b rho lg rho', Out L C G L' C' G' b -> rok G rho -> sexecs nocall rho b = Ok (lg, rho') -> rok G' rho'.
Proof. intros L C G L' C' G' b rho lg rho' [_ [_ [X _]]] R E. exact (proj2 (exec_typed nocall nocall_ok) _ _ _ X _ _ _ R E). Qed.
(** two evaluations one after the other *)
Lemma dyn_seq : forall A B D L G L1 G1 (e1 : caller -> renv -> outcome (list entry * A)) e1' b1 x1 (e2 : caller -> renv -> outcome (list entry * B)) e2' b2 x2 (x : Prop) (h : A -> B -> outcome D) C C1,
  Out L C G L1 C1 G1 b1 -> dyn L G e1 e1' b1 x1 -> dyn L1 G1 e2 e2' b2 x2 -> (x -> x1 /\ x2) ->
  (forall k rho rho1, (forall y, (rframe y <= L)%nat -> rho1 y = rho y) -> e2 (scall funs k) rho1 = e2 (scall funs k) rho) ->
  (forall rho1 rho2, (forall y, (rframe y <= L1)%nat -> rho2 y = rho1 y) -> e1' rho2 = e1' rho1) ->
  (forall a b, h a b <> Failed) ->
  dyn L G (fun call rho => obnd (e1 call rho) (fun a => obnd (e2 call rho) (fun b => obnd (h (snd a) (snd b)) (fun d => Ok (fst a ++ fst b, d)))))
    (fun rho => obnd (e1' rho) (fun a => obnd (e2' rho) (fun b => obnd (h (snd a) (snd b)) (fun d => Ok (fst a ++ fst b, d))))) (b1 ++ b2) x.
Proof.
  intros A B D L G L1 G1 e1 e1' b1 x1 e2 e2' b2 x2 x h C C1 O D1 D2 X Q2 Q1 Hf k rho R. destruct (D1 k rho R) as [P1 F1]. split.
  - intros lg d E. apply ok_inv in E as [[la a] [Ea E]]. apply ok_inv in E as [[lb b] [Eb E]]. cbn [fst snd] in E. apply ok_inv in E as [d' [Eh E]]. injection E as <- ->. destruct (P1 _ _ Ea) as [l1 [r1 [R1 [V1 [S1 [T1 K1]]]]]]. pose proof (rok_out _ _ _ _ _ _ _ _ _ _ O R R1) as Rk1. destruct (D2 k r1 Rk1) as [P2 _]. rewrite <- (Q2 k rho r1 K1) in Eb. destruct (P2 _ _ Eb) as [l2 [r2 [R2 [V2 [S2 [T2 K2]]]]]].
    exists (l1 ++ l2), r2. split; [exact (run_app _ _ _ _ _ _ _ _ R1 R2)|]. split; [rewrite (Q1 r1 r2 K2), V1, V2; cbn [obnd fst snd]; rewrite Eh; reflexivity|]. split; [apply sub_app; assumption|]. split; [intros Hx; destruct (X Hx) as [X1 X2]; rewrite (T1 X1), (T2 X2); reflexivity|]. intros y Y. rewrite K2 by (destruct O as [O _]; lia). apply K1, Y.
  - intros Hx E. destruct (X Hx) as [X1 X2]. destruct (e1 (scall funs k) rho) as [[la a]| |] eqn:Ea; [|exact (fail_left _ _ _ _ (F1 X1 eq_refl))|discriminate E]. destruct (P1 _ _ eq_refl) as [l1 [r1 [R1 [V1 [S1 [T1 K1]]]]]]. pose proof (rok_out _ _ _ _ _ _ _ _ _ _ O R R1) as Rk1. destruct (D2 k r1 Rk1) as [_ F2]. cbn [obnd fst snd] in E. rewrite <- (Q2 k rho r1 K1) in E. destruct (e2 (scall funs k) r1) as [[lb b]| |] eqn:Eb; [|exact (fail_right _ _ _ _ _ _ R1 (F2 X2 eq_refl))|discriminate E].
    exfalso. cbn [obnd fst snd] in E. specialize (Hf a b). destruct (h a b); [discriminate E|contradiction|discriminate E].
Qed.
Lemma xtys_kept : forall L C G C' G' es ts, Inv L C G -> kept L C C' G G' -> xtys (live C G) es ts -> xtys (live C' G') es ts.
Proof. intros L C G C' G' es ts I K X. exact (proj2 ty_sub _ _ _ X _ (live_kept _ _ _ _ _ I K)). Qed.
Lemma dyn_ext : forall A L G (e1 e2 : caller -> renv -> outcome (list entry * A)) e1' e2' b (x x' : Prop), dyn L G e1 e1' b x -> (x' -> x) -> (forall call rho, e2 call rho = e1 call rho) -> (forall rho, e2' rho = e1' rho) -> dyn L G e2 e2' b x'.
Proof.
  intros A L G e1 e2 e1' e2' b x x' D X Q Q' k rho R. destruct (D k rho R) as [P F]. split.
  - intros lg v E. rewrite Q in E. destruct (P lg v E) as [lgb [rho' [E1 [E2 [S [T K]]]]]]. exists lgb, rho'. rewrite Q'. split; [exact E1|]. split; [exact E2|]. split; [exact S|]. split; [intros H; exact (T (X H))|exact K].
  - intros Hx E. rewrite Q in E. exact (F (X Hx) E).
Qed.
Lemma rall_ok : forall fr V f, GoodF fr V f -> forall es L C G ts L' C' b es', Inv L C G -> (fr <= L)%nat -> xtys (live C G) es ts -> stable fr V (idlist slids es) -> rall f L C es = Some (L', C', b, es') ->
  exists G', Out L C G L' C' G' b /\ xtys (live C' G') es' ts /\ forallb nocalls es' = true /\ born L (idlist eids es) (idlist eids es') /\ dyn L G (fun call rho => sevals call rho es) (fun rho => sevals nocall rho es') b (ptable /\ forallb plain es = true).
Proof.
  intros fr V f GF. induction es as [|e es IH]; intros L C G ts L' C' b es' I Fr X St E; cbn [rall] in E.
  - injection E as <- <- <- <-. inversion X; subst. exists G. split; [exact (out_refl _ _ _ I)|]. split; [constructor|]. split; [reflexivity|]. split; [intros y []|]. intros k rho R. split; [|intros _ E; discriminate E]. intros lg v E. injection E as <- <-. exists [], rho. split; [reflexivity|]. split; [reflexivity|]. split; [constructor|]. split; auto.
  - destruct (f L C e) as [[[[L1 C1] b1] e']|] eqn:E1; [|discriminate E]. destruct (rall f L1 C1 es) as [[[[L2 C2] b2] r']|] eqn:E2; [|discriminate E]. injection E as <- <- <- <-. inversion X as [|S0 e0 r t ts0 Xe Xr]; subst. cbn [idlist] in St.
    destruct (GF _ _ _ _ _ _ _ _ _ I Fr Xe ltac:(intros y Y; apply St, in_or_app; left; exact Y) E1) as [G1 [O1 [X1 [N1 [B1 D1]]]]]. pose proof O1 as [LL [I1 [_ [K1 _]]]]. pose proof (xtys_kept _ _ _ _ _ _ _ I K1 Xr) as Xr1.
    destruct (IH _ _ _ _ _ _ _ _ I1 ltac:(lia) Xr1 ltac:(intros y Y; apply St, in_or_app; right; exact Y) E2) as [G2 [O2 [X2 [N2 [B2 D2]]]]]. pose proof O2 as [_ [I2 [_ [K2 _]]]]. exists G2. split; [exact (out_trans _ _ _ _ _ _ _ _ _ _ _ O1 O2)|]. split; [constructor; [exact (proj1 ty_sub _ _ _ X1 _ (live_kept _ _ _ _ _ I1 K2))|exact X2]|]. split; [cbn [forallb]; rewrite N1, N2; reflexivity|].
    split; [cbn [idlist]; intros y Y; rewrite in_app_iff in *; destruct Y as [Y|Y]; [destruct (B1 y Y); auto|destruct (B2 y Y); [auto|right; lia]]|].
    refine (dyn_ext _ _ _ _ _ _ _ _ _ _ (dyn_seq _ _ _ _ _ _ _ _ _ _ _ _ _ _ _ (ptable /\ forallb plain (e :: es) = true) (fun a b => Ok (a :: b)) _ _ O1 D1 D2 _ _ _ _) (fun H => H) _ _).
    + intros [Hp Hx]. cbn [forallb] in Hx. apply andb_true_iff in Hx as [H1 H2]. auto.
    + intros k rho rho1 Q. apply (proj2 (agree _ _ _) _ _ _ Xr). intros y u Y. apply Q. exact (live_frame _ _ _ _ _ I Y).
    + intros rho1 rho2 Q. apply (proj1 (agree _ _ _) _ _ _ X1). intros y u Y. apply Q. exact (live_frame _ _ _ _ _ I1 Y).
    + intros a b H. discriminate H.
    + intros call rho. rewrite u_el_cons. reflexivity.
    + intros rho. rewrite u_el_cons. reflexivity.
Qed.
(** propagate, reduce, propagate *)
Lemma rsand_ok : forall fr V f, GoodF fr V f -> GoodS fr V (rsand f).
Proof.
  intros fr V f GF L C G e t L' C' b e' I Fr X St E. unfold rsand in E. destruct (pexp C e) as [e1|] eqn:E1; [|discriminate E]. destruct (f L C e1) as [[[[L1 C1] b1] e2]|] eqn:E2; [|discriminate E]. destruct (pexp C1 e2) as [e3|] eqn:E3; [|discriminate E]. injection E as <- <- <- <-.
  pose proof I as [K [N _]]. destruct (pexp_live C G K e t e1 X E1) as [X1 [[Y1 J1] V1]]. destruct (GF _ _ _ _ _ _ _ _ _ I Fr X1 ltac:(intros y Y; apply St, J1, Y) E2) as [G1 [O1 [X2 [N2 [B2 D2]]]]]. pose proof O1 as [_ [[K1 _] _]].
  assert (X2c : xty (cover C1 G1) e2 t) by exact (proj1 ty_sub _ _ _ X2 _ (live_cover _ _)). destruct (pexp_live C1 G1 K1 e2 t e3 X2c E3) as [X3 [[Y3 _] V3]]. exists G1. split; [exact O1|]. split; [exact X3|]. split; [exact (pexp_nocalls _ K1 _ _ N2 E3)|]. split; [intros y Y; destruct (B2 y (Y3 y Y)) as [Z|Z]; [left; exact (Y1 y Z)|right; exact Z]|].
  intros k rho R. destruct (D2 k rho R) as [P F]. pose proof (scall_ok funs TO k) as Kc. split.
  - intros lg v Ev. destruct (V1 _ rho Kc R _ _ Ev) as [l1 [Ev1 Q1]]. destruct (P _ _ Ev1) as [lgb [rho' [R' [Ev2 [Q2 [T2 K2]]]]]]. pose proof (rok_out _ _ _ _ _ _ _ _ _ _ O1 R R') as Rk. exists lgb, rho'. split; [exact R'|].
    split; [rewrite <- (proj1 (agree nocall (ov C1 rho') rho') _ _ _ X2 (fun y u Y => live_ov _ _ _ _ _ Y)) in Ev2; destruct (V3 nocall rho' nocall_ok Rk _ _ Ev2) as [l3 [Ev3 Q3]]; apply sub_nil_inv in Q3; subst l3; exact Ev3|]. split; [exact (sub_tr _ _ _ _ Q2 Q1)|]. split; [|exact K2].
    intros [Hp Hx]. destruct (pexp_exact C G K e t e1 X Hx E1) as [Px Ex]. destruct (Ex _ rho Kc R) as [A _]. rewrite (A _ Ev) in Ev1. injection Ev1 as <-. apply T2. auto.
  - intros [Hp Hx] Ev. destruct (pexp_exact C G K e t e1 X Hx E1) as [Px Ex]. destruct (Ex _ rho Kc R) as [_ B]. exact (F (conj Hp Px) (B Ev)).
Qed.
Lemma good_sf : forall fr V f, GoodS fr V f -> GoodF fr V f.
Proof.
  intros fr V f GS L C G e t L' C' b e' I Fr X St E. destruct (GS _ _ _ _ _ _ _ _ _ I Fr (proj1 ty_sub _ _ _ X _ (live_cover _ _)) St E) as [G' [O [X' [N [Bn D]]]]]. exists G'. split; [exact O|]. split; [exact X'|]. split; [exact N|]. split; [exact Bn|].
  refine (dyn_ext _ _ _ _ _ _ _ _ _ _ D (fun H => H) _ _); [|reflexivity]. intros call rho. symmetry. apply (proj1 (agree _ _ _) _ _ _ X). intros y u Y. exact (live_ov _ _ _ _ _ Y).
Qed.
Lemma rslice_same : forall fr V f L C e, stable fr V (eids e) -> rslice fr V f L C e = rsand f L C e.
Proof. intros fr V f L C e H. unfold rslice. rewrite (ren_fixed (now fr V) e H). reflexivity. Qed.
Lemma good_rslices : forall fr V f es L C, stable fr V (idlist eids es) -> rall (rslice fr V f) L C es = rall (rsand f) L C es.
Proof.
  intros fr V f. induction es as [|e es IH]; intros L C H; [reflexivity|]. cbn [rall idlist] in *. rewrite rslice_same by (intros y Y; apply H, in_or_app; left; exact Y). destruct (rsand f L C e) as [[[[L1 C1] b1] e']|]; [|reflexivity]. rewrite IH by (intros y Y; apply H, in_or_app; right; exact Y). reflexivity.
Qed.
End ReduceExp.
