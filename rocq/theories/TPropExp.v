(** Proofs about TProp.v: folding an expression. *)
From Coq Require Import String Ascii.
From Coq Require Import ZArith NArith List Bool Lia.
From Verif Require Import PField Interp Bits Zir CgProg UintOpt Str Abi Typed Flatten FlattenOps FlattenSim FlattenRun Writes Redefine WritesVal WritesExp ZProp ZPropStmt Src SrcTy TProp TPropOk TPropArr TPropOps.
Import ListNotations.
Open Scope Z_scope.

Section TPropExp.
Context {PF : PrimeField}.

(** ** Operators with constant arguments *)
Lemma xp1 : forall S k e c t, xty S (SPar k e [c]) t -> exists te, xty S e te /\ xty S c U32 /\ par_ty k te t.
Proof. intros S k e c t H. inversion H as [| |S0 k0 e0 cs te t0 us Xe Xc U P| |]; subst. inversion Xc as [|S1 a r ta tr Xa Xr]; subst. inversion Xr; subst. inversion U; subst. exists te. auto. Qed.
Lemma ep1 : forall call rho k e c lg v, seval call rho (SPar k e [c]) = Ok (lg, v) -> exists la va lb n w op, seval call rho e = Ok (la, va) /\ seval call rho c = Ok (lb, VUint w n) /\ par_op k [n] = Some op /\ sem_op op [] [va] = Ok v /\ lg = la ++ lb.
Proof.
  intros call rho k e c lg v H. cbn [seval] in H. apply ok_inv in H as [[la va] [Ea H]]. apply ok_inv in H as [[lb vs] [Eb H]]. cbn [fst snd] in H. apply ok_inv in H as [ns [En H]]. apply ok_inv in H as [op [Eo H]]. apply ok_inv in H as [u [Eu H]]. injection H as <- <-.
  cbn [eval_list] in Eb. apply ok_inv in Eb as [[lc vc] [Ec Eb]]. cbn [obnd fst snd] in Eb. injection Eb as <- <-. destruct vc; try discriminate En. injection En as <-. destruct (par_op k [n]) as [op'|] eqn:P; [|discriminate Eo]. injection Eo as ->. exists la, va, lc, n, w, op. rewrite app_nil_r. auto.
Qed.
Lemma ppar_ok : forall S k e cs t e', xty S (SPar k e cs) t -> ppar k e cs = Some e' -> better S (SPar k e cs) e' t.
Proof.
  intros S k e cs t e' X E. pose proof (fun H => dflt_ok S (SPar k e cs) e' t X H) as DF. unfold ppar in E. destruct k; try exact (DF E).
  - destruct cs as [|c [|]]; try exact (DF E). apply xp1 in X as [te [Xe [Xc P]]]. inversion P; subst. destruct (unum c) as [n|] eqn:Uc; [|exact (DF E)]. destruct (unum_ok _ _ Uc) as [w ->]. apply ul_ty in Xc as [_ Rn]. destruct (Z.eqb_spec n 0) as [->|Nz].
    + injection E as <-. apply to_lit with (VField f1); [constructor|reflexivity|]. intros call rho lg v K R Ev. apply ep1 in Ev as [la [va [lb [n [w' [op [Ea [Ec [Eo [Ev _]]]]]]]]]]. apply ev_u in Ec. injection Ec as -> ->. cbn [par_op] in Eo. injection Eo as <-. destruct (type_field _ (proj1 (eval_typed call K) _ _ _ Xe _ _ _ R Ea)) as [x ->]. cbn [sem_op] in Ev. change (Z.of_N (Z.to_N 0)) with 0 in Ev. rewrite Z.pow_0_r in Ev. injection Ev as <-. reflexivity.
    + destruct (fnum e) as [m|] eqn:Ue; [|exact (DF E)]. injection E as <-. apply fnum_ok in Ue as ->. apply to_lit with (VField (of_Z (fval m ^ n))); [constructor|reflexivity|]. intros call rho lg v K R Ev. apply ep1 in Ev as [la [va [lb [n' [w' [op [Ea [Ec [Eo [Ev _]]]]]]]]]]. apply ev_u in Ec. injection Ec as -> ->. apply ev_f in Ea as ->. cbn [par_op] in Eo. injection Eo as <-. cbn [sem_op] in Ev. rewrite Z2N.id in Ev by lia. injection Ev as <-. reflexivity.
  - destruct cs as [|c [|]]; try (destruct (unum e); exact (DF E)). apply xp1 in X as [te [Xe [Xc P]]]. inversion P; subst. destruct (unum e) as [m|] eqn:Ue; [|exact (DF E)]. destruct (unum c) as [n|] eqn:Uc; [|exact (DF E)]. destruct (n <? 128); [|discriminate E]. injection E as <-. destruct (unum_ok _ _ Uc) as [wc ->]. destruct (unum_ok _ _ Ue) as [we ->]. apply ul_ty in Xc as [_ Rn]. apply ul_ty in Xe as [We Rm]. injection We as <-.
    apply to_lit with (VUint w ((m * 2 ^ n) mod 2 ^ bits_of w)); [constructor; apply Z.mod_pos_bound; destruct w; reflexivity|reflexivity|]. intros call rho lg v K R Ev. apply ep1 in Ev as [la [va [lb [n' [w' [op [Ea [Ec [Eo [Ev _]]]]]]]]]]. apply ev_u in Ec. injection Ec as -> ->. apply ev_u in Ea as ->. cbn [par_op] in Eo. injection Eo as <-. cbn [sem_op] in Ev. rewrite Z2Nat.id in Ev by lia. injection Ev as <-. reflexivity.
  - destruct cs as [|c [|]]; try (destruct (unum e); exact (DF E)). apply xp1 in X as [te [Xe [Xc P]]]. inversion P; subst. destruct (unum e) as [m|] eqn:Ue; [|exact (DF E)]. destruct (unum c) as [n|] eqn:Uc; [|exact (DF E)]. destruct (n <? 128); [|discriminate E]. injection E as <-. destruct (unum_ok _ _ Uc) as [wc ->]. destruct (unum_ok _ _ Ue) as [we ->]. apply ul_ty in Xc as [_ Rn]. apply ul_ty in Xe as [We Rm]. injection We as <-.
    apply to_lit with (VUint w (m / 2 ^ n)); [constructor|reflexivity|].
    + assert (0 < 2 ^ n) by (apply Z.pow_pos_nonneg; lia). split; [apply Z.div_pos; lia|]. apply Z.div_lt_upper_bound; [assumption|]. nia.
    + intros call rho lg v K R Ev. apply ep1 in Ev as [la [va [lb [n' [w' [op [Ea [Ec [Eo [Ev _]]]]]]]]]]. apply ev_u in Ec. injection Ec as -> ->. apply ev_u in Ea as ->. cbn [par_op] in Eo. injection Eo as <-. cbn [sem_op] in Ev. rewrite Z2Nat.id in Ev by lia. injection Ev as <-. reflexivity.
Qed.

(** ** Known constants *)
Definition cover (C : consts) (G : rctx) : rctx := fun y => match C y with Some (t, _) => Some t | None => G y end.
Definition ov (C : consts) (rho : renv) : renv := fun y => match C y with Some (_, v) => Some v | None => rho y end.
Definition cok (C : consts) : Prop := forall y t v, C y = Some (t, v) -> has_type v t.
Lemma rok_cover : forall C G rho, cok C -> rok G rho -> rok (cover C G) (ov C rho).
Proof. intros C G rho K R y t. unfold cover, ov. destruct (C y) as [[u v]|] eqn:E; [intros [= <-]; exists v; split; [reflexivity|exact (K _ _ _ E)]|apply R]. Qed.
(** [e'] in [G] has the type of [e] in the covered context, and a value of [e] is one of [e'] *)
Definition bet (C : consts) (G : rctx) (e e' : sexp) (t : cty) : Prop := xty G e' t /\ fewer e e' /\
  forall call rho, call_ok call -> rok G rho -> forall lg v, seval call (ov C rho) e = Ok (lg, v) -> exists lg', seval call rho e' = Ok (lg', v) /\ sublog lg' lg.
Definition bets (C : consts) (G : rctx) (es es' : list sexp) (ts : list cty) : Prop := xtys G es' ts /\ (incl (idlist eids es') (idlist eids es) /\ incl (idlist slids es') (idlist slids es)) /\
  forall call rho, call_ok call -> rok G rho -> forall lg vs, sevals call (ov C rho) es = Ok (lg, vs) -> exists lg', sevals call rho es' = Ok (lg', vs) /\ sublog lg' lg.
Lemma bet_better : forall C G e e1 e2 t, bet C G e e1 t -> better G e1 e2 t -> bet C G e e2 t.
Proof.
  intros C G e e1 e2 t [X1 [[I1 J1] V1]] [X2 [[I2 J2] V2]]. split; [exact X2|]. split; [split; [exact (incl_tran I2 I1)|exact (incl_tran J2 J1)]|]. intros call rho K R lg v E. destruct (V1 call rho K R lg v E) as [l1 [E1 Q1]]. destruct (V2 call rho K R l1 v E1) as [l2 [E2 Q2]]. exists l2. split; [exact E2|exact (sub_tr _ _ _ _ Q2 Q1)].
Qed.
Lemma bets_in : forall C G es, Forall (fun e => forall t e', xty (cover C G) e t -> pexp C e = Some e' -> bet C G e e' t) es -> forall ts es', xtys (cover C G) es ts -> opt_list (map (pexp C) es) = Some es' -> bets C G es es' ts.
Proof.
  intros C G es H. induction H as [|e es He H IH]; intros ts es' X E; cbn [map opt_list] in E.
  - injection E as <-. inversion X; subst. split; [constructor|]. split; [split; apply incl_refl|]. intros call rho K R lg vs Ev. injection Ev as <- <-. exists []. split; [reflexivity|constructor].
  - destruct (pexp C e) as [e'|] eqn:Ee; [|discriminate E]. destruct (opt_list (map (pexp C) es)) as [l|] eqn:El; [|discriminate E]. injection E as <-. inversion X as [|S0 e0 r t ts0 Xe Xr]; subst. destruct (He _ _ Xe eq_refl) as [A [[B B'] V]]. destruct (IH _ _ Xr eq_refl) as [A2 [[B2 B2'] V2]].
    split; [constructor; assumption|]. split; [cbn [idlist]; split; apply incl_app_app; assumption|]. intros call rho K R lg vs Ev. rewrite u_el_cons in Ev. apply ok_inv in Ev as [[la v] [Ea Ev]]. apply ok_inv in Ev as [[lb us] [Eb Ev]]. cbn [fst snd] in Ev. injection Ev as <- <-. destruct (V call rho K R _ _ Ea) as [l1 [E1 Q1]]. destruct (V2 call rho K R _ _ Eb) as [l2 [E2 Q2]]. exists (l1 ++ l2). rewrite u_el_cons, E1. cbn [obnd fst snd]. rewrite E2. split; [reflexivity|apply sub_app; assumption].
Qed.
(** literals stay literals *)
Lemma slit_keep : forall C e e', pexp C e = Some e' -> is_slit e = true -> is_slit e' = true.
Proof. intros C [t x|op [|a l]|k e cs|c x y|ts t f g a] e' E H; try discriminate H; destruct op; try discriminate H. injection E as <-. reflexivity. Qed.
Lemma sem_lits : forall op l l' vs v, Forall2 (fun a b : bool => a = true -> b = true) l l' -> sem_op op l vs = Ok v -> sem_op op l' vs = Ok v.
Proof.
  intros op l l' vs v H E. destruct op; try exact E. assert (M : existsb id l = true -> existsb id l' = true). { clear E. induction H as [|a b l l' H H2 IH]; [auto|]. cbn [existsb id]. rewrite !orb_true_iff. intros [Q|Q]; [left; exact (H Q)|right; exact (IH Q)]. }
  cbn [sem_op] in *. destruct vs as [|[] [|[] [|]]]; try discriminate E; try exact E. destruct (existsb id l); [rewrite (M eq_refl); exact E|]. cbn [orb] in E. destruct (existsb id l'); cbn [orb]; [|exact E]. destruct ((fval _ <? safe_max) && (fval _ <? safe_max)); [exact E|discriminate E].
Qed.
Lemma bet_op : forall C G op es es' ts t, bets C G es es' ts -> opt_list (map (pexp C) es) = Some es' -> op_ty op ts t -> bet C G (SOp op es) (SOp op es') t.
Proof.
  intros C G op es es' ts t [X [I V]] P Y. split; [apply XOp with ts; assumption|]. split; [exact I|]. intros call rho K R lg v E. rewrite u_seval_op in E. apply ok_inv in E as [[la vs] [Ea E]]. apply ok_inv in E as [u [Eu E]]. injection E as <- <-. cbn [fst snd] in *. destruct (V call rho K R _ _ Ea) as [l1 [E1 Q]]. exists l1. split; [|exact Q]. rewrite u_seval_op, E1. cbn [obnd fst snd].
  rewrite (sem_lits op (map is_slit es) (map is_slit es') vs u); [reflexivity| |exact Eu]. clear - P. apply opt_list_f2 in P. induction P as [|a b l m H P IH]; [constructor|]. cbn [map]. constructor; [exact (slit_keep C a b H)|exact IH].
Qed.
Theorem pexp_ok : forall C G, cok C -> forall e t e', xty (cover C G) e t -> pexp C e = Some e' -> bet C G e e' t.
Proof.
  intros C G KC. induction e as [t0 x|op es IH|k e cs IH IHs|c x y IHc IHx IHy|ts t0 f g a IHg IHa] using sexp_ind'; intros t e' X E; cbn [pexp] in E.
  - inversion X as [S0 t1 x0 Ex| | | |]; subst. unfold cover in Ex. destruct (C x) as [[u v]|] eqn:Cx.
    + injection E as <-. injection Ex as ->. pose proof (KC _ _ _ Cx) as T. destruct (lit_ok t v T) as [Y [Z0 _]]. split; [apply Y|]. split.
      * unfold fewer. split; [rewrite (lit_ids t v T); intros z []|]. apply (incl_tran (slids_eids _)). rewrite (lit_ids t v T). intros z [].
      * intros call rho K R lg w Ev. cbn [seval] in Ev. unfold ov in Ev. rewrite Cx in Ev. injection Ev as <- <-. exists []. split; [apply Z0|constructor].
    + injection E as <-. split; [constructor; exact Ex|]. split; [split; apply incl_refl|]. intros call rho K R lg w Ev. cbn [seval] in *. unfold ov in Ev. rewrite Cx in Ev. exists lg. split; [exact Ev|apply sublog_refl].
  - destruct (opt_list (map (pexp C) es)) as [l|] eqn:El; [|discriminate E]. inversion X as [|S0 o args us t1 X1 Y| | |]; subst. pose proof (bets_in C G es IH us l X1 El) as B. pose proof (bet_op C G op es l us t B El Y) as B2. exact (bet_better _ _ _ _ _ _ B2 (psimp_ok G op l t e' (proj1 B2) E)).
  - destruct (pexp C e) as [e1|] eqn:Ee; [|discriminate E]. destruct (opt_list (map (pexp C) cs)) as [l|] eqn:El; [|discriminate E]. inversion X as [| |S0 k0 e0 cs0 te t1 us Xe Xc U P| |]; subst. destruct (IH _ _ Xe eq_refl) as [Y1 [[I1 J1] V1]]. destruct (bets_in C G cs IHs us l Xc El) as [Y2 [[I2 J2] V2]].
    assert (B : bet C G (SPar k e cs) (SPar k e1 l) t). { split; [apply XPar with te us; assumption|]. split; [unfold fewer; cbn [eids slids]; split; [apply incl_app_app; assumption|destruct (is_slice k); apply incl_app_app; assumption]|].
      intros call rho K R lg v Ev. cbn [seval] in Ev. apply ok_inv in Ev as [[la va] [Ea Ev]]. apply ok_inv in Ev as [[lb vs] [Eb Ev]]. cbn [fst snd] in Ev. destruct (V1 call rho K R _ _ Ea) as [l1 [E1 Q1]]. destruct (V2 call rho K R _ _ Eb) as [l2 [E2 Q2]]. apply ok_inv in Ev as [ns [En Ev]]. apply ok_inv in Ev as [op [Eo Ev]]. apply ok_inv in Ev as [u [Eu Ev]]. injection Ev as <- <-. exists (l1 ++ l2). cbn [seval]. rewrite E1. cbn [obnd fst snd]. unfold sevals in E2. rewrite E2. cbn [obnd fst snd]. rewrite En. cbn [obnd]. rewrite Eo. cbn [obnd]. rewrite Eu. split; [reflexivity|apply sub_app; assumption]. }
    exact (bet_better _ _ _ _ _ _ B (ppar_ok G k e1 l t e' (proj1 B) E)).
  - inversion X as [| | |S0 c0 x0 y0 t1 Xc Xx Xy|]; subst. destruct (pexp C c) as [c'|] eqn:Ec; [|discriminate E]. destruct (IHc _ _ Xc eq_refl) as [Yc [[Ic Jc] Vc]].
    assert (INV : forall call rho lg v, seval call (ov C rho) (SCond c x y) = Ok (lg, v) -> exists la k lx vx ly vy, seval call (ov C rho) c = Ok (la, VBool k) /\ seval call (ov C rho) x = Ok (lx, vx) /\ seval call (ov C rho) y = Ok (ly, vy) /\ v = (if k then vx else vy) /\ lg = la ++ lx ++ ly).
    { clear. intros call rho lg v H. cbn [seval] in H. apply ok_inv in H as [[la va] [Ea H]]. apply ok_inv in H as [[lb vb] [Eb H]]. apply ok_inv in H as [[ld vd] [Ed H]]. cbn [fst snd] in H. destruct va as [| |k| | |]; try discriminate H. injection H as <- <-. exists la, k, lb, vb, ld, vd. auto 6. }
    destruct (bnum c') as [[]|] eqn:Bc.
    + destruct (IHx _ _ Xx E) as [Yx [[Ix Jx] Vx]]. split; [exact Yx|]. split; [unfold fewer; cbn [eids slids]; split; apply incl_appr, incl_appl; assumption|]. intros call rho K R lg v Ev. destruct (INV _ _ _ _ Ev) as [la [k [lx [vx [ly [vy [E1 [E2 [E3 [-> ->]]]]]]]]]]. destruct (Vc call rho K R _ _ E1) as [l1 [Q1 _]]. apply bnum_ok in Bc as ->. apply ev_b in Q1. injection Q1 as ->. destruct (Vx call rho K R _ _ E2) as [l2 [Q2 S2]]. exists l2. split; [exact Q2|]. apply sub_pre, sublog_ext, S2.
    + destruct (IHy _ _ Xy E) as [Yx [[Ix Jx] Vx]]. split; [exact Yx|]. split; [unfold fewer; cbn [eids slids]; split; apply incl_appr, incl_appr; assumption|]. intros call rho K R lg v Ev. destruct (INV _ _ _ _ Ev) as [la [k [lx [vx [ly [vy [E1 [E2 [E3 [-> ->]]]]]]]]]]. destruct (Vc call rho K R _ _ E1) as [l1 [Q1 _]]. apply bnum_ok in Bc as ->. apply ev_b in Q1. injection Q1 as ->. destruct (Vx call rho K R _ _ E3) as [l2 [Q2 S2]]. exists l2. split; [exact Q2|]. apply sub_pre, sub_pre, S2.
    + destruct (pexp C x) as [x'|] eqn:Ex; [|discriminate E]. destruct (pexp C y) as [y'|] eqn:Ey; [|discriminate E]. injection E as <-. destruct (IHx _ _ Xx eq_refl) as [Yx [[Ix Jx] Vx]]. destruct (IHy _ _ Xy eq_refl) as [Yy [[Iy Jy] Vy]]. destruct (sexp_eqb x' y') eqn:Q.
      * apply sexp_eqb_ok in Q as <-. split; [exact Yx|]. split; [unfold fewer; cbn [eids slids]; split; apply incl_appr, incl_appl; assumption|]. intros call rho K R lg v Ev. destruct (INV _ _ _ _ Ev) as [la [k [lx [vx [ly [vy [E1 [E2 [E3 [-> ->]]]]]]]]]]. destruct (Vx call rho K R _ _ E2) as [l2 [Q2 S2]]. destruct (Vy call rho K R _ _ E3) as [l3 [Q3 S3]]. rewrite Q2 in Q3. injection Q3 as <- <-. exists l2. split; [destruct k; exact Q2|]. apply sub_pre, sublog_ext, S2.
      * split; [constructor; assumption|]. split; [unfold fewer; cbn [eids slids]; split; repeat apply incl_app_app; assumption|]. intros call rho K R lg v Ev. destruct (INV _ _ _ _ Ev) as [la [k [lx [vx [ly [vy [E1 [E2 [E3 [-> ->]]]]]]]]]]. destruct (Vc call rho K R _ _ E1) as [l1 [Q1 S1]]. destruct (Vx call rho K R _ _ E2) as [l2 [Q2 S2]]. destruct (Vy call rho K R _ _ E3) as [l3 [Q3 S3]]. exists (l1 ++ l2 ++ l3). cbn [seval]. rewrite Q1. cbn [obnd]. rewrite Q2. cbn [obnd]. rewrite Q3. split; [reflexivity|]. apply sub_app; [exact S1|apply sub_app; assumption].
  - inversion X as [| | | |S0 ts0 t1 f0 g0 a0 us Xg U Xa]; subst. destruct (opt_list (map (pexp C) g)) as [g'|] eqn:Eg; [|discriminate E]. destruct (opt_list (map (pexp C) a)) as [a'|] eqn:Ea; [|discriminate E]. injection E as <-. destruct (bets_in C G g IHg us g' Xg Eg) as [Y1 [[I1 J1] V1]]. destruct (bets_in C G a IHa ts a' Xa Ea) as [Y2 [[I2 J2] V2]].
    split; [apply XCall with us; assumption|]. split; [unfold fewer; cbn [eids slids]; split; apply incl_app_app; assumption|]. intros call rho K R lg v Ev. cbn [seval] in Ev. apply ok_inv in Ev as [[lg1 gv] [E1 Ev]]. apply ok_inv in Ev as [[lg2 av] [E2 Ev]]. cbn [fst snd] in Ev. apply ok_inv in Ev as [ns [En Ev]]. apply ok_inv in Ev as [[lr r] [Er Ev]]. cbn [fst snd] in Ev. injection Ev as <- <-. destruct (V1 call rho K R _ _ E1) as [l1 [Q1 S1]]. destruct (V2 call rho K R _ _ E2) as [l2 [Q2 S2]]. exists (l1 ++ l2 ++ lr). cbn [seval]. unfold sevals in Q1, Q2. rewrite Q1. cbn [obnd fst snd]. rewrite Q2. cbn [obnd fst snd]. rewrite En. cbn [obnd]. rewrite Er. split; [reflexivity|]. apply sub_app; [exact S1|apply sub_app; [exact S2|apply sublog_refl]].
Qed.
Lemma pexps_ok : forall C G, cok C -> forall es ts es', xtys (cover C G) es ts -> pexps C es = Some es' -> bets C G es es' ts.
Proof. intros C G KC es ts es' X E. apply bets_in; [|exact X|exact E]. apply Forall_forall. intros e _ t e' Xe Ee. exact (pexp_ok C G KC e t e' Xe Ee). Qed.
End TPropExp.
