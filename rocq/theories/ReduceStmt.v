(** Reduced statements. *)
From Coq Require Import String Ascii.
From Coq Require Import ZArith NArith List Bool Lia.
From Verif Require Import PField Interp Bits Zir CgProg UintOpt Str Abi Typed Flatten FlattenOps FlattenSim FlattenRun Writes Redefine WritesVal WritesExp ZPropStmt Src SrcTy TProp TPropOk TPropArr TPropOps TPropExp TPropStmt TPropProg Reduce ReduceRen ReduceExp.
Import ListNotations.
Open Scope Z_scope.

Section ReduceStmt.
Context {PF : PrimeField}.

(** ** Literals are left alone *)
Lemma splice_lits : forall es, splice (repeat false (length es)) es = map (fun e => (false, e)) es.
Proof. intros es. unfold splice. induction es as [|e es IH]; [reflexivity|]. cbn [length repeat combine flat_map fst snd splice1 app map filter keep]. f_equal. exact IH. Qed.
Lemma psimp_tup : forall es, psimp OTup es = Some (SOp OTup es).
Proof. reflexivity. Qed.
Lemma opt_list_same : forall (f : sexp -> option sexp) l, Forall (fun e => f e = Some e) l -> opt_list (map f l) = Some l.
Proof. intros f l H. induction H as [|e l E H IH]; [reflexivity|]. cbn [map opt_list]. rewrite E, IH. reflexivity. Qed.
Lemma pexp_lit : forall C t v, has_type v t -> pexp C (lit t v) = Some (lit t v).
Proof.
  intros C. induction t as [| |w|ty n IH|ts IH|ms IH|] using cty_ind'; intros v H; destruct v; try (cbn in H; contradiction); try reflexivity.
  - apply type_array in H as [_ H]. cbn [lit pexp]. rewrite opt_list_same by (rewrite Forall_forall in *; intros e I; apply in_map_iff in I as [v [<- I]]; apply IH, H, I). cbn [psimp]. rewrite <- (map_length (lit ty) l). generalize (map (lit ty) l) as M. intros M. rewrite splice_lits, !map_map. cbn [fst snd]. rewrite map_id. replace (map (fun _ : sexp => false) M) with (repeat false (length M)); [reflexivity|]. clear. induction M as [|e r IH]; [reflexivity|]. cbn [map length repeat]. rewrite IH. reflexivity.
  - apply type_tuple in H. cbn [lit pexp]. change (SOp OTup _) with (SOp OTup (lit_list l ts)). change (opt_list (map (pexp C) _)) with (opt_list (map (pexp C) (lit_list l ts))). rewrite opt_list_same; [reflexivity|]. induction H as [|v t l ts T H IHl]; [constructor|]. inversion IH; subst. cbn [lit_list]. constructor; auto.
  - apply type_struct in H. cbn [lit pexp]. change (SOp (OStr (map fst ms)) _) with (SOp (OStr (map fst ms)) (lit_members l ms)). change (opt_list (map (pexp C) _)) with (opt_list (map (pexp C) (lit_members l ms))). rewrite opt_list_same; [reflexivity|]. induction H as [|[k v] [k' t] l ms [_ T] H IHl]; [constructor|]. inversion IH; subst. cbn [lit_members]. cbn [fst snd] in *. constructor; auto.
Qed.
(** no calls and no slices: reduction does not change the expression *)
Fixpoint flatx (e : sexp) : bool :=
  match e with
  | SId _ _ => true
  | SOp _ args => forallb flatx args
  | SPar k e cs => negb (is_slice k) && flatx e && forallb flatx cs
  | SCond c x y => flatx c && flatx x && flatx y
  | SCall _ _ _ _ _ => false
  end.
Lemma lit_flatx : forall t v, has_type v t -> flatx (lit t v) = true.
Proof.
  induction t as [| |w|ty n IH|ts IH|ms IH|] using cty_ind'; intros v H; destruct v; try (cbn in H; contradiction); try reflexivity.
  - apply type_array in H as [_ H]. cbn [lit flatx]. apply all_true. rewrite Forall_forall in *. intros e I. apply in_map_iff in I as [v [<- I]]. apply IH, H, I.
  - apply type_tuple in H. cbn [lit flatx]. apply all_true. change (Forall (fun e => flatx e = true) (lit_list l ts)). induction H as [|v t l ts T H IHl]; [constructor|]. inversion IH; subst. cbn [lit_list]. constructor; auto.
  - apply type_struct in H. cbn [lit flatx]. apply all_true. change (Forall (fun e => flatx e = true) (lit_members l ms)). induction H as [|[k v] [k' t] l ms [_ T] H IHl]; [constructor|]. inversion IH; subst. cbn [lit_members]. cbn [fst snd] in *. constructor; auto.
Qed.
Definition Idem (f : rfold) : Prop := forall L C e r, flatx e = true -> f L C e = Some r -> r = (L, C, [], e).
Lemma rall_idem : forall f, Idem f -> forall es L C r, forallb flatx es = true -> rall f L C es = Some r -> r = (L, C, [], es).
Proof.
  intros f I. induction es as [|e es IH]; intros L C r N E; cbn [rall forallb] in *; [injection E as <-; reflexivity|]. apply andb_true_iff in N as [N1 N2]. destruct (f L C e) as [[[[L1 C1] b1] e']|] eqn:E1; [|discriminate E]. apply I in E1; [|exact N1]. injection E1 as -> -> -> ->. destruct (rall f L C es) as [[[[L2 C2] b2] r']|] eqn:E2; [|discriminate E]. apply IH in E2; [|exact N2]. injection E2 as -> -> -> ->. injection E as <-. reflexivity.
Qed.
Lemma rexp_idem : forall funs n fr V, Idem (rexp funs n fr V).
Proof.
  intros funs. induction n as [|n IH]; intros fr V L C e r N E; [discriminate E|]. cbn [rexp] in E. destruct e as [t x|op args|k e cs|c x y|ts t g a b]; cbn [flatx] in N.
  - injection E as <-. reflexivity.
  - destruct (rall _ L C args) as [[[[L1 C1] b1] l]|] eqn:E1; [|discriminate E]. apply (rall_idem _ (IH fr V)) in E1; [|exact N]. injection E1 as -> -> -> ->. injection E as <-. reflexivity.
  - rewrite !andb_true_iff in N. destruct N as [[N0 N1] N2]. destruct (is_slice k); [discriminate N0|]. destruct (rexp funs n fr V L C e) as [[[[L1 C1] b1] e']|] eqn:E1; [|discriminate E]. apply IH in E1; [|exact N1]. injection E1 as -> -> -> ->. destruct (rall _ L C cs) as [[[[L2 C2] b2] l]|] eqn:E2; [|discriminate E]. apply (rall_idem _ (IH fr V)) in E2; [|exact N2]. injection E2 as -> -> -> ->. cbn [negb orb app] in E. injection E as <-. reflexivity.
  - rewrite !andb_true_iff in N. destruct N as [[N0 N1] N2]. destruct (rall _ L C [c; x; y]) as [[[[L2 C2] b2] l]|] eqn:E2; [|discriminate E]. apply (rall_idem _ (IH fr V)) in E2; [|cbn [forallb]; rewrite N0, N1, N2; reflexivity]. injection E2 as -> -> -> ->. injection E as <-. reflexivity.
  - discriminate N.
Qed.
(** ** Propagated statements have no calls *)
Definition acc_nocalls (a : sacc) : bool := match a with SASel i => nocalls i | _ => true end.
Lemma ppath_nocalls : forall C, cok C -> forall p p', forallb acc_nocalls p = true -> ppath C p = Some p' -> forallb acc_nocalls p' = true.
Proof.
  intros C K. induction p as [|a p IH]; intros p' N E; cbn [ppath forallb] in *; [injection E as <-; reflexivity|]. apply andb_true_iff in N as [N1 N2]. destruct a as [i|m|k].
  - destruct (pexp C i) as [i'|] eqn:Ei; [|discriminate E]. destruct (ppath C p) as [r|]; [|discriminate E]. injection E as <-. cbn [forallb acc_nocalls]. rewrite (pexp_nocalls C K _ _ N1 Ei), (IH _ N2 eq_refl). reflexivity.
  - destruct (ppath C p) as [r|]; [|discriminate E]. injection E as <-. exact (IH _ N2 eq_refl).
  - destruct (ppath C p) as [r|]; [|discriminate E]. injection E as <-. exact (IH _ N2 eq_refl).
Qed.
Lemma pexps_nocalls : forall C, cok C -> forall l l', forallb nocalls l = true -> pexps C l = Some l' -> forallb nocalls l' = true.
Proof.
  intros C K. unfold pexps. induction l as [|e l IH]; intros l' N E; cbn [map opt_list forallb] in *; [injection E as <-; reflexivity|]. apply andb_true_iff in N as [N1 N2]. destruct (pexp C e) as [d|] eqn:X; [|discriminate E]. destruct (opt_list (map (pexp C) l)) as [r|]; [|discriminate E]. injection E as <-. cbn [forallb]. rewrite (pexp_nocalls C K _ _ N1 X), (IH _ N2 eq_refl). reflexivity.
Qed.
Lemma pstmt_nocalls : forall C s C' l, cok C -> snocalls s = true -> pstmt C s = Some (C', l) -> forallb snocalls l = true.
Proof.
  intros C s C' l K N E.
  assert (Iv : forall x s', snocalls s' = true -> forallb snocalls (snd (invalidate C x s')) = true). { intros x s' Ns. unfold invalidate. destruct (C x) as [[t v]|] eqn:Cx; cbn [snd forallb snocalls]; rewrite Ns; [rewrite (lit_nocalls _ _ (K _ _ _ Cx)); reflexivity|reflexivity]. }
  assert (Ig : forall x s', snocalls s' = true -> Some (invalidate C x s') = Some (C', l) -> forallb snocalls l = true) by (intros x s' Ns [= Q]; pose proof (Iv x s' Ns) as H; rewrite Q in H; exact H).
  destruct s as [x t e|x t p e|e err|fmt args|x t em args|x a b body]; cbn [pstmt snocalls] in *.
  - destruct (pexp C e) as [e'|] eqn:Ee; [|discriminate E]. destruct (isc e'); [destruct (cval e'); [|discriminate E]; destruct (C x); [discriminate E|]; injection E as _ <-; reflexivity|]. exact (Ig x (SDef x t e') (pexp_nocalls C K _ _ N Ee) E).
  - apply andb_true_iff in N as [N1 N2]. destruct (ppath C p) as [p'|] eqn:Ep; [|discriminate E]. destruct (pexp C e) as [e'|] eqn:Ee; [|discriminate E].
    assert (Ns : snocalls (SSet x t p' e') = true) by (cbn [snocalls]; apply andb_true_iff; split; [exact (ppath_nocalls C K _ _ N1 Ep)|exact (pexp_nocalls C K _ _ N2 Ee)]).
    destruct (isc e'); [|exact (Ig _ _ Ns E)]. destruct (cval e') as [v|]; [|discriminate E]. destruct (C x) as [[u c]|]; [|exact (Ig _ _ Ns E)]. destruct (lsteps p') as [ps|]; [|exact (Ig _ _ Ns E)]. destruct (put ps v c); [injection E as _ <-; reflexivity|exact (Ig _ _ Ns E)].
  - destruct (pexp C e) as [e'|] eqn:Ee; [|discriminate E]. destruct (bnum e') as [[]|]; [injection E as _ <-; reflexivity|discriminate E|]. injection E as _ <-. cbn [forallb snocalls]. rewrite (pexp_nocalls C K _ _ N Ee). reflexivity.
  - destruct (pexps C args) as [r|] eqn:Er; [|discriminate E]. injection E as _ <-. cbn [forallb snocalls]. rewrite (pexps_nocalls C K _ _ N Er). reflexivity.
  - destruct (pexps C args) as [r|] eqn:Er; [|discriminate E]. pose proof (pexps_nocalls C K _ _ N Er) as Nr. destruct (forallb isc r); [|exact (Ig _ (SEmb x t em r) Nr E)]. destruct (opt_list (map cval r)) as [vs|]; [|discriminate E]. destruct (pemb em vs) as [[v|]|]; [injection E as _ <-; reflexivity|exact (Ig _ (SEmb x t em r) Nr E)|discriminate E].
  - discriminate N.
Qed.
(** ** Paths in plain positions *)
Definition acc_plain (a : sacc) : bool := match a with SASel i => plain i | _ => true end.
Lemma ppath_live : forall C G, cok C -> forall t p te p', xpath (cover C G) t p te -> ppath C p = Some p' -> xpath (live C G) t p' te /\ incl (pids slids p') (pids slids p) /\ incl (pids eids p') (pids eids p) /\
  forall call rho, call_ok call -> rok G rho -> forall lg ps, ssteps call (ov C rho) p = Ok (lg, ps) -> exists lg', ssteps call rho p' = Ok (lg', ps) /\ sublog lg' lg.
Proof.
  intros C G K t p te p' X E. assert (X' : xpath (cover C (live C G)) t p te) by (apply (path_sub _ _ _ _ X); intros y u; unfold cover, live; destruct (C y) as [[]|]; auto).
  destruct (ppath_ok C (live C G) K t p te p' X' E) as [A [B D]]. split; [exact A|]. split; [exact B|]. split; [|intros call rho Kc R; apply D; [exact Kc|exact (rok_sub _ _ _ (live_sub_g C G) R)]].
  clear - X E K. revert p' E. induction X as [t|ty n i r t N Y H IH|ms m tm r t a b E0 N H IH|ts k tk r t E0 H IH]; intros p' E; cbn [ppath] in E; [injection E as <-; apply incl_refl| | |].
  - destruct (pexp C i) as [i'|] eqn:Ei; [|discriminate E]. destruct (ppath C r) as [r'|]; [|discriminate E]. injection E as <-. unfold pids. cbn [flat_map]. apply incl_app_app; [|exact (IH _ eq_refl)]. destruct (pexp_live C G K _ _ _ Y Ei) as [_ [[A _] _]]. exact A.
  - destruct (ppath C r) as [r'|]; [|discriminate E]. injection E as <-. exact (IH _ eq_refl).
  - destruct (ppath C r) as [r'|]; [|discriminate E]. injection E as <-. exact (IH _ eq_refl).
Qed.
Lemma ppath_exact : forall C G, cok C -> forall t p te p', xpath (cover C G) t p te -> forallb acc_plain p = true -> ppath C p = Some p' -> forallb acc_plain p' = true /\ forall call rho, call_ok call -> rok G rho -> exact_ev (ssteps call (ov C rho) p) (ssteps call rho p').
Proof.
  intros C G K t p te p' X. revert p'. induction X as [t|ty n i r t N Y H IH|ms m tm r t a b E0 N H IH|ts k tk r t E0 H IH]; intros p' P E; cbn [ppath forallb] in *.
  - injection E as <-. split; [reflexivity|]. intros; split; auto.
  - apply andb_true_iff in P as [P1 P2]. destruct (pexp C i) as [i'|] eqn:Ei; [|discriminate E]. destruct (ppath C r) as [r'|]; [|discriminate E]. injection E as <-. destruct (pexp_exact C G K _ _ _ Y P1 Ei) as [Q1 E1]. destruct (IH _ P2 eq_refl) as [Q2 E2]. split; [cbn [forallb acc_plain]; rewrite Q1, Q2; reflexivity|]. intros call rho Kc R. destruct (E1 call rho Kc R) as [A1 B1]. destruct (E2 call rho Kc R) as [A2 B2]. cbn [ssteps]. split.
    + intros [lg ps] Ev. apply ok_inv in Ev as [ra [Ea Ev]]. apply ok_inv in Ev as [rb [Eb Ev]]. rewrite (A1 _ Ea). cbn [obnd]. rewrite (A2 _ Eb). exact Ev.
    + intros Ev. destruct (seval call (ov C rho) i) as [ra| |] eqn:Ea; [|rewrite (B1 eq_refl); reflexivity|discriminate Ev]. rewrite (A1 _ eq_refl). cbn [obnd] in *. destruct (ssteps call (ov C rho) r) as [rb| |] eqn:Eb; [|rewrite (B2 eq_refl); reflexivity|discriminate Ev]. cbn [obnd] in Ev. destruct (snd ra); discriminate Ev.
  - apply andb_true_iff in P as [_ P2]. destruct (ppath C r) as [r'|]; [|discriminate E]. injection E as <-. destruct (IH _ P2 eq_refl) as [Q2 E2]. split; [exact Q2|]. intros call rho Kc R. destruct (E2 call rho Kc R) as [A2 B2]. cbn [ssteps]. split.
    + intros [lg ps] Ev. apply ok_inv in Ev as [rb [Eb Ev]]. rewrite (A2 _ Eb). exact Ev.
    + intros Ev. destruct (ssteps call (ov C rho) r) as [rb| |] eqn:Eb; [discriminate Ev|rewrite (B2 eq_refl); reflexivity|discriminate Ev].
  - apply andb_true_iff in P as [_ P2]. destruct (ppath C r) as [r'|]; [|discriminate E]. injection E as <-. destruct (IH _ P2 eq_refl) as [Q2 E2]. split; [exact Q2|]. intros call rho Kc R. destruct (E2 call rho Kc R) as [A2 B2]. cbn [ssteps]. split.
    + intros [lg ps] Ev. apply ok_inv in Ev as [rb [Eb Ev]]. rewrite (A2 _ Eb). exact Ev.
    + intros Ev. destruct (ssteps call (ov C rho) r) as [rb| |] eqn:Eb; [discriminate Ev|rewrite (B2 eq_refl); reflexivity|discriminate Ev].
Qed.

Variable funs : ftable.
Hypothesis TO : table_ok funs.
Variable ptable : Prop.
Notation dyn := (dyn funs).
Lemma rpath_ok : forall fr V f, GoodF funs ptable fr V f -> forall p L C G t te L' C' b p', Inv L C G -> (fr <= L)%nat -> xpath (live C G) t p te -> stable fr V (pids slids p) -> rpath f L C p = Some (L', C', b, p') ->
  exists G', Out L C G L' C' G' b /\ xpath (live C' G') t p' te /\ forallb acc_nocalls p' = true /\ born L (pids eids p) (pids eids p') /\ dyn L G (fun call rho => ssteps call rho p) (fun rho => ssteps nocall rho p') b (ptable /\ forallb acc_plain p = true).
Proof.
  intros fr V f GF. induction p as [|a p IH]; intros L C G t te L' C' b p' I Fr X St E.
  - injection E as <- <- <- <-. inversion X; subst. exists G. split; [exact (out_refl _ _ _ I)|]. split; [constructor|]. split; [reflexivity|]. split; [intros y []|]. intros k rho R. split; [|intros _ E; discriminate E]. intros lg v E. injection E as <- <-. exists [], rho. split; [reflexivity|]. split; [reflexivity|]. split; [constructor|]. split; auto.
  - assert (one : forall d, a = SAMem d \/ (exists k, a = SAElt k) -> True) by auto. destruct a as [i|m|k].
    + change (rpath f L C (SASel i :: p)) with (match f L C i with Some (L1, C1, b1, i') => match rpath f L1 C1 p with Some (L2, C2, b2, r') => Some (L2, C2, b1 ++ b2, SASel i' :: r') | None => None end | None => None end) in E.
      destruct (f L C i) as [[[[L1 C1] b1] i']|] eqn:E1; [|discriminate E]. destruct (rpath f L1 C1 p) as [[[[L2 C2] b2] r']|] eqn:E2; [|discriminate E]. injection E as <- <- <- <-. inversion X as [|ty n i0 r t0 Nn Xe Xr| |]; subst. unfold pids in St. cbn [flat_map] in St.
      destruct (GF _ _ _ _ _ _ _ _ _ I Fr Xe ltac:(intros y Y; apply St, in_or_app; left; exact Y) E1) as [G1 [O1 [X1 [N1 [B1 D1]]]]]. pose proof O1 as [LL [I1 [_ [K1 _]]]]. pose proof (path_sub _ _ _ _ Xr _ (live_kept _ _ _ _ _ I K1)) as Xr1.
      destruct (IH _ _ _ _ _ _ _ _ _ I1 ltac:(lia) Xr1 ltac:(intros y Y; apply St, in_or_app; right; exact Y) E2) as [G2 [O2 [X2 [N2 [B2 D2]]]]]. pose proof O2 as [_ [I2 [_ [K2 _]]]]. exists G2. split; [exact (out_trans _ _ _ _ _ _ _ _ _ _ _ O1 O2)|]. split; [constructor; [exact Nn|exact (proj1 ty_sub _ _ _ X1 _ (live_kept _ _ _ _ _ I1 K2))|exact X2]|]. split; [cbn [forallb acc_nocalls]; rewrite N1, N2; reflexivity|].
      split; [unfold pids; cbn [flat_map]; intros y Y; rewrite in_app_iff in *; destruct Y as [Y|Y]; [destruct (B1 y Y); auto|destruct (B2 y Y); [auto|right; lia]]|].
      refine (dyn_ext _ _ _ _ _ _ _ _ _ _ _ (dyn_seq _ _ _ _ _ _ _ _ _ _ _ _ _ _ _ _ (ptable /\ forallb acc_plain (SASel i :: p) = true) (fun a b => match a with VUint _ k => Ok (PIdx k :: b) | _ => Stuck end) _ _ O1 D1 D2 _ _ _ _) (fun H => H) _ _).
      * intros [Hp Hx]. cbn [forallb acc_plain] in Hx. apply andb_true_iff in Hx as [H1 H2]. auto.
      * intros k rho rho1 Q. apply (agree_path _ _ _ _ _ _ _ Xr). intros y u Y. apply Q. exact (live_frame _ _ _ _ _ I Y).
      * intros rho1 rho2 Q. apply (proj1 (agree _ _ _) _ _ _ X1). intros y u Y. apply Q. exact (live_frame _ _ _ _ _ I1 Y).
      * intros a b H. destruct a; discriminate H.
      * intros call rho. cbn [ssteps]. destruct (seval call rho i) as [[la va]| |]; [|reflexivity|reflexivity]. cbn [obnd]. destruct (ssteps call rho p) as [[lb vb]| |]; [|reflexivity|reflexivity]. cbn [obnd fst snd]. destruct va; reflexivity.
      * intros rho. cbn [ssteps]. destruct (seval nocall rho i') as [[la va]| |]; [|reflexivity|reflexivity]. cbn [obnd]. destruct (ssteps nocall rho r') as [[lb vb]| |]; [|reflexivity|reflexivity]. cbn [obnd fst snd]. destruct va; reflexivity.
    + change (rpath f L C (SAMem m :: p)) with (match rpath f L C p with Some (L2, C2, b2, r') => Some (L2, C2, b2, SAMem m :: r') | None => None end) in E. destruct (rpath f L C p) as [[[[L2 C2] b2] r']|] eqn:E2; [|discriminate E]. injection E as <- <- <- <-. inversion X as [| |ms m0 tm r t0 a0 b0 Em Nm Xr|]; subst.
      destruct (IH _ _ _ _ _ _ _ _ _ I Fr Xr St E2) as [G2 [O2 [X2 [N2 [B2 D2]]]]]. exists G2. split; [exact O2|]. split; [econstructor; [reflexivity|exact Nm|exact X2]|]. split; [exact N2|]. split; [exact B2|]. intros k rho R. destruct (D2 k rho R) as [P F]. cbn [ssteps]. split.
      * intros lg v Ev. apply ok_inv in Ev as [[lb vb] [Eb Ev]]. injection Ev as <- <-. destruct (P _ _ Eb) as [l1 [r1 [R1 [V1 [S1 [T1 K1]]]]]]. exists l1, r1. rewrite V1. split; [exact R1|]. split; [reflexivity|]. auto.
      * intros Hx Ev. apply F; [exact Hx|]. destruct (ssteps (scall funs k) rho p); [discriminate Ev|reflexivity|discriminate Ev].
    + change (rpath f L C (SAElt k :: p)) with (match rpath f L C p with Some (L2, C2, b2, r') => Some (L2, C2, b2, SAElt k :: r') | None => None end) in E. destruct (rpath f L C p) as [[[[L2 C2] b2] r']|] eqn:E2; [|discriminate E]. injection E as <- <- <- <-. inversion X as [| | |ts k0 tk r t0 Em Xr]; subst.
      destruct (IH _ _ _ _ _ _ _ _ _ I Fr Xr St E2) as [G2 [O2 [X2 [N2 [B2 D2]]]]]. exists G2. split; [exact O2|]. split; [econstructor; [exact Em|exact X2]|]. split; [exact N2|]. split; [exact B2|]. intros j rho R. destruct (D2 j rho R) as [P F]. cbn [ssteps]. split.
      * intros lg v Ev. apply ok_inv in Ev as [[lb vb] [Eb Ev]]. injection Ev as <- <-. destruct (P _ _ Eb) as [l1 [r1 [R1 [V1 [S1 [T1 K1]]]]]]. exists l1, r1. rewrite V1. split; [exact R1|]. split; [reflexivity|]. auto.
      * intros Hx Ev. apply F; [exact Hx|]. destruct (ssteps (scall funs j) rho p); [discriminate Ev|reflexivity|discriminate Ev].
Qed.
End ReduceStmt.
