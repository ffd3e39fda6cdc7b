(** Proofs about TProp.v: statements and programs. *)
From Coq Require Import String Ascii.
From Coq Require Import ZArith NArith List Bool Lia.
From Verif Require Import PField Interp Bits Zir CgProg UintOpt Str Abi Typed Flatten FlattenOps FlattenSim FlattenRun Writes Redefine WritesVal WritesExp ZProp ZPropStmt Src SrcTy TProp TPropOk TPropArr TPropOps TPropExp.
Import ListNotations.
Open Scope Z_scope.

Section TPropStmt.
Context {PF : PrimeField}.

(** ** Built-in functions on constants *)
Lemma greedy_ok : forall n z l r, greedy n z = (l, r) -> length l = n /\ z = bv l + r.
Proof.
  induction n as [|n IH]; intros z l r E; cbn [greedy] in E; [injection E as <- <-; auto|]. destruct (greedy n (if 2 ^ Z.of_nat n <=? z then z - 2 ^ Z.of_nat n else z)) as [l' r'] eqn:G. injection E as <- <-. apply IH in G as [L Q]. split; [cbn [length]; congruence|]. cbn [bv]. rewrite L. destruct (2 ^ Z.of_nat n <=? z); lia.
Qed.
Lemma greedy_f_ok : forall n x l r, 2 ^ Z.of_nat (n - 1) < pp -> greedy_f n x = (l, r) -> length l = n /\ fval x = bv l + fval r.
Proof.
  induction n as [|n IH]; intros x l r Hp E; cbn [greedy_f] in E; [injection E as <- <-; auto|]. destruct (greedy_f n (if fval (of_Z (2 ^ Z.of_nat n)) <=? fval x then fsub x (of_Z (2 ^ Z.of_nat n)) else x)) as [l' r'] eqn:G. injection E as <- <-.
  assert (P : pow2 n < pp) by (replace (S n - 1)%nat with n in Hp by lia; exact Hp). pose proof (pow2_pos n). apply IH in G as [L Q]; [|pose proof (pow2_le (n - 1) n ltac:(lia)); unfold pow2 in *; lia]. split; [cbn [length]; congruence|]. cbn [bv]. rewrite L. assert (V : fval (of_Z (2 ^ Z.of_nat n)) = 2 ^ Z.of_nat n) by (apply fval_of_Z_small; unfold pow2 in *; lia). assert (V2 : (2 ^ Z.of_nat n) mod pp = 2 ^ Z.of_nat n) by (apply Z.mod_small; unfold pow2 in *; lia). rewrite V in Q. rewrite ?V, ?V2. revert Q. destruct (Z.leb_spec (2 ^ Z.of_nat n) (fval x)); intros Q; [|lia].
  unfold fsub in Q. rewrite V, fval_of_Z_small in Q; [lia|]. pose proof (fval_range x). unfold pow2 in *. lia.
Qed.
Lemma from_bits_bv : forall l, from_bits l = bv l.
Proof. induction l as [|b l IH]; [reflexivity|]. cbn [from_bits bv]. rewrite IH. reflexivity. Qed.
Lemma pemb_ok : forall em ts t vs v, emb_ty em ts t -> Forall2 has_type vs ts -> pemb em vs = Some (Some v) -> sem_emb em vs = Ok v.
Proof.
  intros em ts t vs v Y T E. destruct em as [|n|n|n|n]; cbn [emb_ty] in Y.
  - destruct Y as [-> ->]. apply f2_one in T as [u [-> T]]. apply type_field in T as [x ->]. cbn [pemb sem_emb] in *. destruct (Feqb x f0); [congruence|]. destruct (Feqb x f1); congruence.
  - destruct Y as [-> [w [-> En]]]. apply f2_one in T as [u [-> T]]. apply type_uint in T as [z [-> R]]. cbn [pemb sem_emb] in *. rewrite En, Nat.eqb_refl. destruct (greedy n z) as [l r] eqn:G. destruct (Z.eqb_spec r 0) as [->|_]; [|discriminate E]. injection E as <-. apply greedy_ok in G as [L Q]. rewrite Z.add_0_r in Q. subst z. rewrite <- L, bits_be_bv. reflexivity.
  - destruct Y as [-> [w [-> En]]]. apply f2_one in T as [u [-> T]]. apply type_arr in T as [l [-> [L T]]]. destruct (bools_typed l T) as [bs [-> [B _]]]. cbn [pemb sem_emb] in *. rewrite B in *. cbn [of_opt obnd]. destruct (uw_of n) as [w'|] eqn:U; [|discriminate E]. destruct (length bs =? n)%nat; [|discriminate E]. injection E as <-. unfold uw_of in U. subst n. destruct w; injection U as <-; reflexivity.
  - destruct Y as [-> _]. apply f2_two in T as [a [b [-> [Ta Tb]]]]. discriminate E.
  - destruct Y as [-> [-> Hn]]. apply f2_one in T as [u [-> T]]. apply type_field in T as [x ->]. cbn [pemb sem_emb] in *. destruct (greedy_f n x) as [l r] eqn:G. destruct (Feqb r f0) eqn:R0; [|discriminate E]. injection E as <-. apply Feqb_eq in R0 as ->. apply greedy_f_ok in G as [L Q]; [|exact (proj2 Hn)]. change (fval f0) with 0 in Q. rewrite Z.add_0_r in Q. pose proof (bv_range l) as Rl. rewrite L in Rl.
    unfold pow2 in Rl. rewrite Q. destruct (Z.ltb_spec (bv l) (2 ^ Z.of_nat n)); [|lia]. rewrite <- L at 1. rewrite bits_be_bv. reflexivity.
Qed.

(** ** Paths *)
Definition pids (f : sexp -> list rid) (p : list sacc) : list rid := flat_map (fun a => match a with SASel i => f i | _ => [] end) p.
Lemma ppath_ok : forall C G, cok C -> forall t p te p', xpath (cover C G) t p te -> ppath C p = Some p' -> xpath G t p' te /\ incl (pids slids p') (pids slids p) /\
  forall call rho, call_ok call -> rok G rho -> forall lg ps, ssteps call (ov C rho) p = Ok (lg, ps) -> exists lg', ssteps call rho p' = Ok (lg', ps) /\ sublog lg' lg.
Proof.
  intros C G KC t p te p' X. revert p'. induction X as [t|ty n i r t N Y H IH|ms m tm r t a b E N H IH|ts k tk r t E H IH]; intros p' P; cbn [ppath] in P.
  - injection P as <-. split; [constructor|]. split; [apply incl_refl|]. intros call rho K R lg ps Ev. exists lg. split; [exact Ev|apply sublog_refl].
  - destruct (pexp C i) as [i'|] eqn:Ei; [|discriminate P]. destruct (ppath C r) as [r'|] eqn:Er; [|discriminate P]. injection P as <-. destruct (pexp_ok C G KC i _ i' Y Ei) as [A [[_ J] V]]. destruct (IH r' eq_refl) as [A2 [J2 V2]]. split; [constructor; assumption|]. split; [unfold pids in *; cbn [flat_map]; apply incl_app_app; assumption|].
    intros call rho K R lg ps Ev. cbn [ssteps] in Ev. apply ok_inv in Ev as [[la vi] [Ea Ev]]. apply ok_inv in Ev as [[lb qs] [Eb Ev]]. cbn [fst snd] in Ev. destruct (V call rho K R _ _ Ea) as [l1 [E1 Q1]]. destruct (V2 call rho K R _ _ Eb) as [l2 [E2 Q2]]. destruct vi; try discriminate Ev. injection Ev as <- <-. exists (l1 ++ l2). cbn [ssteps]. rewrite E1. cbn [obnd]. rewrite E2. split; [reflexivity|apply sub_app; assumption].
  - destruct (ppath C r) as [r'|] eqn:Er; [|discriminate P]. injection P as <-. destruct (IH r' eq_refl) as [A2 [J2 V2]]. split; [econstructor; eassumption|]. split; [exact J2|]. intros call rho K R lg ps Ev. cbn [ssteps] in Ev. apply ok_inv in Ev as [[lb qs] [Eb Ev]]. cbn [fst snd] in Ev. injection Ev as <- <-. destruct (V2 call rho K R _ _ Eb) as [l2 [E2 Q2]]. exists l2. cbn [ssteps]. rewrite E2. auto.
  - destruct (ppath C r) as [r'|] eqn:Er; [|discriminate P]. injection P as <-. destruct (IH r' eq_refl) as [A2 [J2 V2]]. split; [econstructor; eassumption|]. split; [exact J2|]. intros call rho K R lg ps Ev. cbn [ssteps] in Ev. apply ok_inv in Ev as [[lb qs] [Eb Ev]]. cbn [fst snd] in Ev. injection Ev as <- <-. destruct (V2 call rho K R _ _ Eb) as [l2 [E2 Q2]]. exists l2. cbn [ssteps]. rewrite E2. auto.
Qed.
Lemma lsteps_ok : forall p ps, lsteps p = Some ps -> forall call rho, ssteps call rho p = Ok ([], ps).
Proof.
  induction p as [|a p IH]; intros ps E call rho; cbn [lsteps] in E; [injection E as <-; reflexivity|]. destruct a as [i|m|k].
  - destruct (unum i) as [n|] eqn:U; [|discriminate E]. destruct (lsteps p) as [l|]; [|discriminate E]. injection E as <-. destruct (unum_ok _ _ U) as [w ->]. cbn [ssteps]. rewrite (IH l eq_refl). reflexivity.
  - destruct (lsteps p) as [l|]; [|discriminate E]. injection E as <-. cbn [ssteps]. rewrite (IH l eq_refl). reflexivity.
  - destruct (lsteps p) as [l|]; [|discriminate E]. injection E as <-. cbn [ssteps]. rewrite (IH l eq_refl). reflexivity.
Qed.

(** ** Expressions in equal environments; expressions without calls *)
Lemma eval_ext : forall call r1 r2, (forall y, r1 y = r2 y) -> forall e, seval call r1 e = seval call r2 e.
Proof.
  intros call r1 r2 H. assert (L : forall l, Forall (fun e => seval call r1 e = seval call r2 e) l -> eval_list (seval call r1) l = eval_list (seval call r2) l) by (intros l F; induction F as [|e l E F IH]; [reflexivity|cbn [eval_list]; rewrite E, IH; reflexivity]).
  induction e as [t0 x|op es IH|k e cs IH IHs|c x y IHc IHx IHy|ts t0 f g a IHg IHa] using sexp_ind'; cbn [seval].
  - rewrite H. reflexivity.
  - rewrite (L es IH). reflexivity.
  - rewrite IH, (L cs IHs). reflexivity.
  - rewrite IHc, IHx, IHy. reflexivity.
  - rewrite (L g IHg), (L a IHa). reflexivity.
Qed.
Lemma evals_ext : forall call r1 r2, (forall y, r1 y = r2 y) -> forall l, sevals call r1 l = sevals call r2 l.
Proof. intros call r1 r2 H. induction l as [|e l IH]; [reflexivity|]. rewrite !u_el_cons, IH, (eval_ext call r1 r2 H). reflexivity. Qed.
Lemma steps_ext : forall call r1 r2, (forall y, r1 y = r2 y) -> forall p, ssteps call r1 p = ssteps call r2 p.
Proof. intros call r1 r2 H. induction p as [|[i|m|k] p IH]; [reflexivity| | |]; cbn [ssteps]; rewrite ?IH, ?(eval_ext call r1 r2 H); reflexivity. Qed.
(** calls which log nothing and do not fail *)
Definition silent (call : caller) : Prop := forall f gs ts t vs, match call f gs ts t vs with Ok (lg, _) => lg = [] | Failed => False | Stuck => True end.
Definition mute {A} (o : outcome (list entry * A)) : Prop := match o with Ok (lg, _) => lg = [] | Failed => False | Stuck => True end.
Lemma sem_mute : forall op l vs, sem_op op l vs <> Failed.
Proof.
  intros op l vs. assert (O : forall A (o : option A), of_opt o <> Failed) by (intros A []; discriminate). destruct op; cbn [sem_op];
  repeat match goal with |- context [match ?x with _ => _ end] => destruct x; try discriminate; try (apply O) | |- context [if ?x then _ else _] => destruct x; try discriminate; try (apply O) end; try (apply O); try discriminate.
Qed.
Lemma mute_list : forall call rho l, Forall (fun e => mute (seval call rho e)) l -> mute (sevals call rho l).
Proof. intros call rho l H. induction H as [|e l E H IH]; [reflexivity|]. rewrite u_el_cons. destruct (seval call rho e) as [[la v]| |]; [|exact E|exact I]. destruct (sevals call rho l) as [[lb vs]| |]; [|exact IH|exact I]. cbn [mute] in *. subst. reflexivity. Qed.
Lemma silent_eval : forall call, silent call -> forall rho e, mute (seval call rho e).
Proof.
  intros call Q rho. induction e as [t0 x|op es IH|k e cs IH IHs|c x y IHc IHx IHy|ts t0 f g a IHg IHa] using sexp_ind'; cbn [seval].
  - destruct (rho x); reflexivity.
  - apply mute_list in IH. unfold sevals in IH. destruct (eval_list _ es) as [[la vs]| |]; [|exact IH|exact I]. cbn [obnd fst snd mute] in *. pose proof (sem_mute op (map is_slit es) vs) as N. destruct (sem_op op (map is_slit es) vs); [exact IH|contradiction|exact I].
  - apply mute_list in IHs. unfold sevals in IHs. destruct (seval call rho e) as [[la v]| |]; [|exact IH|exact I]. destruct (eval_list _ cs) as [[lb vs]| |]; [|exact IHs|exact I]. cbn [obnd fst snd mute] in *. destruct (nums vs) as [ns|]; [|exact I]. cbn [obnd of_opt]. destruct (par_op k ns) as [op|]; [|exact I]. cbn [obnd of_opt]. pose proof (sem_mute op [] [v]) as N. destruct (sem_op op [] [v]); [|contradiction|exact I]. cbn [obnd mute]. subst. reflexivity.
  - destruct (seval call rho c) as [[la v]| |]; [|exact IHc|exact I]. destruct (seval call rho x) as [[lx vx]| |]; [|exact IHx|exact I]. destruct (seval call rho y) as [[ly vy]| |]; [|exact IHy|exact I]. cbn [obnd fst snd mute] in *. destruct v; try exact I. subst. reflexivity.
  - apply mute_list in IHg. apply mute_list in IHa. unfold sevals in *. destruct (eval_list _ g) as [[la gv]| |]; [|exact IHg|exact I]. destruct (eval_list _ a) as [[lb av]| |]; [|exact IHa|exact I]. cbn [obnd fst snd mute] in *. destruct (nums gv) as [ns|]; [|exact I]. cbn [obnd of_opt]. pose proof (Q f ns ts t0 av) as N. destruct (call f ns ts t0 av) as [[lr v]| |]; [|contradiction|exact I]. cbn [obnd fst snd mute]. subst. reflexivity.
Qed.
Lemma silent_evals : forall call, silent call -> forall rho es, mute (sevals call rho es).
Proof. intros call Q rho es. apply mute_list, Forall_forall. intros e _. apply silent_eval, Q. Qed.
Lemma silent_steps : forall call, silent call -> forall rho p, mute (ssteps call rho p).
Proof.
  intros call Q rho. induction p as [|[i|m|k] p IH]; [reflexivity| | |]; cbn [ssteps].
  - pose proof (silent_eval call Q rho i) as N. destruct (seval call rho i) as [[la v]| |]; [|exact N|exact I]. destruct (ssteps call rho p) as [[lb ps]| |]; [|exact IH|exact I]. cbn [obnd fst snd mute] in *. destruct v; try exact I. subst. reflexivity.
  - destruct (ssteps call rho p) as [[lb ps]| |]; exact IH.
  - destruct (ssteps call rho p) as [[lb ps]| |]; exact IH.
Qed.
Lemma nocall_silent : silent nocall.
Proof. intros f gs ts t vs. exact I. Qed.
Lemma mute_ok : forall A (o : outcome (list entry * A)) lg a, mute o -> o = Ok (lg, a) -> lg = [].
Proof. intros A o lg a M ->. exact M. Qed.

(** ** Contexts *)
Lemma ty_sub : (forall S e t, xty S e t -> forall S', subctx S S' -> xty S' e t) /\ (forall S es ts, xtys S es ts -> forall S', subctx S S' -> xtys S' es ts).
Proof.
  apply xty_mut.
  - intros S t x E S' H. constructor. apply H, E.
  - intros S op args ts t _ IH Y S' H. apply XOp with ts; [apply IH, H|exact Y].
  - intros S k e cs te t us _ IH _ IHs U P S' H. apply XPar with te us; auto.
  - intros S c x y t _ IHc _ IHx _ IHy S' H. constructor; auto.
  - intros S ts t f gens args us _ IHg U _ IHa S' H. apply XCall with us; auto.
  - intros S S' H. constructor.
  - intros S e r t ts _ IH _ IHs S' H. constructor; auto.
Qed.
Lemma path_sub : forall S t p te, xpath S t p te -> forall S', subctx S S' -> xpath S' t p te.
Proof. intros S t p te H S' Q. induction H as [t|ty n i r t N Y H IH|ms m tm r t a b E N H IH|ts k tk r t E H IH]; econstructor; try eassumption. exact (proj1 ty_sub _ _ _ Y _ Q). Qed.
Definition ceq (S S' : rctx) : Prop := forall y, S y = S' y.
Lemma ceq_sub : forall S S', ceq S S' -> subctx S S'.
Proof. intros S S' H y t E. rewrite <- H. exact E. Qed.
Lemma ceq_put : forall S S' x t, ceq S S' -> ceq (cput S x t) (cput S' x t).
Proof. intros S S' x t H y. unfold cput. rewrite H. reflexivity. Qed.
Lemma stys_ceq : (forall S s S1, xsty S s S1 -> forall S', ceq S S' -> exists S1', xsty S' s S1' /\ ceq S1 S1') /\ (forall S ss S1, xstys S ss S1 -> forall S', ceq S S' -> exists S1', xstys S' ss S1' /\ ceq S1 S1').
Proof.
  assert (NV : forall S S' x t, ceq S S' -> newv S x t -> newv S' x t) by (intros S S' x t Q N; unfold newv in *; rewrite <- Q; exact N).
  apply xsty_mut.
  - intros S x t e G N Y S' Q. exists (cput S' x t). split; [|apply ceq_put; exact Q]. constructor; [exact G|exact (NV _ _ _ _ Q N)|exact (proj1 ty_sub _ _ _ Y _ (ceq_sub _ _ Q))].
  - intros S x t p e te E G P Y S' Q. exists S'. split; [|exact Q]. apply XSet with te; [rewrite <- Q; exact E|exact G|exact (path_sub _ _ _ _ P _ (ceq_sub _ _ Q))|exact (proj1 ty_sub _ _ _ Y _ (ceq_sub _ _ Q))].
  - intros S e err Y S' Q. exists S'. split; [constructor; exact (proj1 ty_sub _ _ _ Y _ (ceq_sub _ _ Q))|exact Q].
  - intros S fmt args ts Y S' Q. exists S'. split; [apply XLog with ts; exact (proj2 ty_sub _ _ _ Y _ (ceq_sub _ _ Q))|exact Q].
  - intros S x t em args ts N Y Em S' Q. exists (cput S' x t). split; [|apply ceq_put; exact Q]. apply XEmb with ts; [exact (NV _ _ _ _ Q N)|exact (proj2 ty_sub _ _ _ Y _ (ceq_sub _ _ Q))|exact Em].
  - intros S S1 x a b body N Ya Yb _ IH S' Q. destruct (IH _ (ceq_put _ _ x U32 Q)) as [S2 [Y2 _]]. exists S'. split; [|exact Q]. apply XFor with S2; [exact (NV _ _ _ _ Q N)|exact (proj1 ty_sub _ _ _ Ya _ (ceq_sub _ _ Q))|exact (proj1 ty_sub _ _ _ Yb _ (ceq_sub _ _ Q))|exact Y2].
  - intros S S' Q. exists S'. split; [constructor|exact Q].
  - intros S S1 S2 s r _ IH _ IHs S' Q. destruct (IH _ Q) as [S3 [A B]]. destruct (IHs _ B) as [S4 [D E]]. exists S4. split; [apply XScons with S3; assumption|exact E].
Qed.
(** ** Statements *)
Definition cnew (C : consts) (G : rctx) : Prop := forall y t v, C y = Some (t, v) -> newv G y t /\ good_ty t.
Definition sids (f : sexp -> list rid) (s : sstmt) : list rid :=
  match s with SDef _ _ e | SAssert e _ => f e | SSet _ _ p e => pids f p ++ f e | SLog _ args | SEmb _ _ _ args => idlist f args | SFor _ _ _ _ => [] end.
Definition sdef (s : sstmt) : option rid := match s with SDef x _ _ | SSet x _ _ _ | SEmb x _ _ _ => Some x | _ => None end.
Definition is_for (s : sstmt) : bool := match s with SFor _ _ _ _ => true | _ => false end.
Definition req (r r' : renv) : Prop := forall y, r y = r' y.
Definition step_sim (C C' : consts) (G G' : rctx) (s : sstmt) (l : list sstmt) : Prop :=
  forall call rho, call_ok call -> rok G rho -> forall lg rho1, sexec call (ov C rho) s = Ok (lg, rho1) ->
  exists lg' rho', sexecs call rho l = Ok (lg', rho') /\ sublog lg' lg /\ (silent call -> lg' = lg) /\ req (ov C' rho') rho1 /\ (forall y, sdef s <> Some y -> rho' y = rho y).
Definition step_fail (C : consts) (G : rctx) (s : sstmt) (l : list sstmt) : Prop :=
  forall call rho, silent call -> call_ok call -> rok G rho -> sexec call (ov C rho) s = Failed -> sexecs call rho l = Failed.
Definition same_off (s : sstmt) (C C' : consts) (G G' : rctx) : Prop := forall y, sdef s <> Some y -> C' y = C y /\ G' y = G y.
Definition pstep (C C' : consts) (G : rctx) (S1 : rctx) (s : sstmt) (l : list sstmt) : Prop :=
  exists G', xstys G l G' /\ cok C' /\ cnew C' G' /\ ceq (cover C' G') S1 /\ same_off s C C' G G' /\ Forall (fun s' => sdef s' = sdef s /\ incl (sids slids s') (sids slids s) /\ is_for s' = false) l /\ step_sim C C' G G' s l /\ step_fail C G s l.
Lemma ov_put : forall C rho x t v, req (ov (kput C x (Some (t, v))) rho) (rupd (ov C rho) x v).
Proof. intros C rho x t v y. unfold ov, kput, rupd. destruct (rid_eqb y x); reflexivity. Qed.
Lemma ov_none : forall C rho x v, req (ov (kput C x None) (rupd rho x v)) (rupd (ov C rho) x v).
Proof. intros C rho x v y. unfold ov, kput, rupd. destruct (rid_eqb y x); reflexivity. Qed.
Lemma ov_same : forall C rho x v, C x = None -> req (ov C (rupd rho x v)) (rupd (ov C rho) x v).
Proof. intros C rho x v E y. unfold ov, rupd. destruct (rid_eqb y x) eqn:Q; [apply rid_eqb_ok in Q as ->; rewrite E; reflexivity|reflexivity]. Qed.
Lemma rid_eqb_sym : forall x y, rid_eqb x y = rid_eqb y x.
Proof. intros x y. destruct (rid_eqb x y) eqn:E; [apply rid_eqb_ok in E as ->; symmetry; apply rid_eqb_refl|]. destruct (rid_eqb y x) eqn:E2; [|reflexivity]. apply rid_eqb_ok in E2 as ->. rewrite rid_eqb_refl in E. discriminate E. Qed.
Lemma rupd_off : forall (rho : renv) x v y, Some x <> Some y -> rupd rho x v y = rho y.
Proof. intros rho x v y N. unfold rupd. rewrite rid_eqb_ne; [reflexivity|congruence]. Qed.
(** becoming known *)
Lemma known : forall C G x t v, cok C -> cnew C G -> newv (cover C G) x t -> good_ty t -> has_type v t ->
  cok (kput C x (Some (t, v))) /\ cnew (kput C x (Some (t, v))) G /\ ceq (cover (kput C x (Some (t, v))) G) (cput (cover C G) x t) /\ (forall y, Some x <> Some y -> kput C x (Some (t, v)) y = C y).
Proof.
  intros C G x t v K N NV Gt T. split; [|split; [|split]].
  - intros y u w. unfold kput. destruct (rid_eqb y x); [intros [= <- <-]; exact T|apply K].
  - intros y u w. unfold kput. destruct (rid_eqb y x) eqn:Q; [|apply N]. apply rid_eqb_ok in Q as ->. intros [= <- <-]. split; [|exact Gt]. unfold newv, cover in NV. destruct (C x) as [[t0 v0]|] eqn:Cx; [|exact NV]. destruct NV as [NV|NV]; [discriminate NV|]. injection NV as ->. exact (proj1 (N _ _ _ Cx)).
  - intros y. unfold cover, kput, cput. destruct (rid_eqb y x); reflexivity.
  - intros y Ne. unfold kput. rewrite rid_eqb_ne by congruence. reflexivity.
Qed.
(** ** Statements in equal environments *)
Definition oeq (a b : outcome (list entry * renv)) : Prop := match a, b with Ok (l, r), Ok (l', r') => l = l' /\ req r r' | Failed, Failed => True | Stuck, Stuck => True | _, _ => False end.
Lemma oeq_bnd : forall a b f g, oeq a b -> (forall l r r', req r r' -> oeq (f (l, r)) (g (l, r'))) -> oeq (obnd a f) (obnd b g).
Proof. intros a b f g H K. destruct a as [[l r]| |], b as [[l' r']| |]; cbn [oeq obnd] in *; try contradiction; try exact I. destruct H as [-> H]. apply K, H. Qed.
Lemma oeq_same : forall A (o : outcome A) f g, (forall a, oeq (f a) (g a)) -> oeq (obnd o f) (obnd o g).
Proof. intros A [a| |] f g H; cbn [obnd oeq]; [apply H|exact I|exact I]. Qed.
Lemma req_upd : forall r r' x v, req r r' -> req (rupd r x v) (rupd r' x v).
Proof. intros r r' x v H y. unfold rupd. rewrite H. reflexivity. Qed.
Lemma oeq_list : forall A (ex : renv -> A -> outcome (list entry * renv)) l, Forall (fun s => forall r r', req r r' -> oeq (ex r s) (ex r' s)) l -> forall r r', req r r' -> oeq (exec_list ex r l) (exec_list ex r' l).
Proof.
  intros A ex l H. induction H as [|s l Hs H IH]; intros r r' Q; cbn [exec_list]; [split; [reflexivity|exact Q]|]. apply oeq_bnd; [apply Hs, Q|]. intros lg a b Q2. cbn [fst snd]. apply oeq_bnd; [apply IH, Q2|]. intros lg2 a2 b2 Q3. cbn [fst snd oeq]. split; [reflexivity|exact Q3].
Qed.
Section stmt_ind.
Variable P : sstmt -> Prop.
Hypothesis HDef : forall x t e, P (SDef x t e).
Hypothesis HSet : forall x t p e, P (SSet x t p e).
Hypothesis HAssert : forall e err, P (SAssert e err).
Hypothesis HLog : forall fmt args, P (SLog fmt args).
Hypothesis HEmb : forall x t em args, P (SEmb x t em args).
Hypothesis HFor : forall x a b body, Forall P body -> P (SFor x a b body).
Fixpoint sstmt_ind' (s : sstmt) : P s :=
  match s with
  | SDef x t e => HDef x t e
  | SSet x t p e => HSet x t p e
  | SAssert e err => HAssert e err
  | SLog fmt args => HLog fmt args
  | SEmb x t em args => HEmb x t em args
  | SFor x a b body => HFor x a b body ((fix go l := match l return Forall P l with [] => Forall_nil P | s :: r => Forall_cons s (sstmt_ind' s) (go r) end) body)
  end.
End stmt_ind.
Lemma exec_ext : forall call s r r', req r r' -> oeq (sexec call r s) (sexec call r' s).
Proof.
  intros call. induction s as [x t e|x t p e|e err|fmt args|x t em args|x a b body IH] using sstmt_ind'; intros r r' Q; cbn [sexec].
  - rewrite (eval_ext call r r' Q). apply oeq_same. intros [l v]. split; [reflexivity|apply req_upd, Q].
  - rewrite (eval_ext call r r' Q), (steps_ext call r r' Q), (Q x). apply oeq_same. intros [l v]. apply oeq_same. intros [lp ps]. apply oeq_same. intros o. apply oeq_same. intros v'. split; [reflexivity|apply req_upd, Q].
  - rewrite (eval_ext call r r' Q). apply oeq_same. intros [l v]. cbn [fst snd]. destruct v as [| |[]| | |]; try exact I. split; [reflexivity|exact Q].
  - rewrite (evals_ext call r r' Q). apply oeq_same. intros [l v]. split; [reflexivity|exact Q].
  - rewrite (evals_ext call r r' Q). apply oeq_same. intros [l v]. apply oeq_same. intros u. split; [reflexivity|apply req_upd, Q].
  - rewrite (eval_ext call r r' Q a), (eval_ext call r r' Q b). apply oeq_same. intros [la va]. apply oeq_same. intros [lb vb]. cbn [fst snd]. destruct va; try exact I. destruct vb; try exact I. apply oeq_bnd.
    + apply oeq_list; [|exact Q]. apply Forall_forall. intros k _ r1 r2 Q2. apply oeq_list; [exact IH|apply req_upd, Q2].
    + intros lg r1 r2 Q2. split; [reflexivity|exact Q2].
Qed.
Lemma execs_ext : forall call ss r r', req r r' -> oeq (sexecs call r ss) (sexecs call r' ss).
Proof. intros call ss. apply oeq_list, Forall_forall. intros s _. apply exec_ext. Qed.
Lemma oeq_ok : forall a b l r, oeq a b -> a = Ok (l, r) -> exists r', b = Ok (l, r') /\ req r r'.
Proof. intros a b l r H ->. destruct b as [[l' r']| |]; try contradiction. destruct H as [-> H]. exists r'. auto. Qed.
Lemma oeq_failed : forall a b, oeq a b -> a = Failed -> b = Failed.
Proof. intros a b H ->. destruct b; try contradiction. reflexivity. Qed.
(** ** A statement which stays: if its variable was known, its last value is defined first *)
Lemma u_sdef : forall call rho x t e, sexec call rho (SDef x t e) = obnd (seval call rho e) (fun a => Ok (fst a, rupd rho x (snd a))).
Proof. reflexivity. Qed.
Definition before (C : consts) (G : rctx) (x : rid) : rctx := match C x with Some (t, _) => cput G x t | None => G end.
Lemma sub_before : forall C G x, cnew C G -> subctx (cover C G) (cover C (before C G x)).
Proof. intros C G x N y t. unfold cover, before. destruct (C y) as [[u v]|] eqn:E; [auto|]. destruct (C x) as [[u v]|] eqn:Ex; [|auto]. unfold cput. destruct (rid_eqb y x) eqn:Q; [apply rid_eqb_ok in Q as ->; rewrite E in Ex; discriminate Ex|auto]. Qed.
Lemma residual : forall C G x s s' tx S1, cok C -> cnew C G -> sdef s = Some x -> sdef s' = Some x -> incl (sids slids s') (sids slids s) -> is_for s' = false -> ceq (cput (cover C G) x tx) S1 -> newv (cover C G) x tx ->
  (exists G2, xsty (before C G x) s' G2 /\ ceq G2 (cput (before C G x) x tx)) ->
  (forall call r, call_ok call -> rok (before C G x) r -> ov C r x = r x -> forall lg r1, sexec call (ov C r) s = Ok (lg, r1) -> exists lg' v, sexec call r s' = Ok (lg', rupd r x v) /\ sublog lg' lg /\ (silent call -> lg' = lg) /\ req r1 (rupd (ov C r) x v)) ->
  (forall call r, silent call -> call_ok call -> rok (before C G x) r -> ov C r x = r x -> sexec call (ov C r) s = Failed -> sexec call r s' = Failed) ->
  pstep C (fst (invalidate C x s')) G S1 s (snd (invalidate C x s')).
Proof.
  intros C G x s s' tx S1 K N Ds Ds' Inc F Q1 NV [G2 [Y Q2]] Sim Fl. unfold before, invalidate in *. destruct (C x) as [[t v]|] eqn:Cx; cbn [fst snd].
  - assert (t = tx) by (unfold newv, cover in NV; rewrite Cx in NV; destruct NV as [NV|NV]; congruence). subst tx. destruct (N _ _ _ Cx) as [Nx Gt]. pose proof (K _ _ _ Cx) as Tv. destruct (lit_ok t v Tv) as [LY [LE _]]. exists G2. split; [|split; [|split; [|split; [|split; [|split; [|split]]]]]].
    + apply XScons with (cput G x t); [constructor; [exact Gt|exact Nx|apply LY]|]. apply XScons with G2; [exact Y|constructor].
    + intros y u w. unfold kput. destruct (rid_eqb y x); [intros H; discriminate H|apply K].
    + intros y u w. unfold kput. destruct (rid_eqb y x) eqn:E; [intros H; discriminate H|]. intros Cy. destruct (N _ _ _ Cy) as [A B]. split; [|exact B]. unfold newv in *. rewrite Q2. unfold cput. rewrite E. exact A.
    + intros y. rewrite <- Q1. unfold cover, kput, cput. destruct (rid_eqb y x) eqn:E; [rewrite Q2; unfold cput; rewrite E; reflexivity|]. destruct (C y) as [[u w]|]; [reflexivity|]. rewrite Q2. unfold cput. rewrite E. reflexivity.
    + intros y Ne. rewrite Ds in Ne. assert (E : rid_eqb y x = false) by (apply rid_eqb_ne; congruence). unfold kput. rewrite Q2. unfold cput. rewrite E. auto.
    + constructor; [|constructor; [|constructor]].
      * split; [rewrite Ds; reflexivity|]. split; [|reflexivity]. cbn [sids]. apply (incl_tran (slids_eids _)). rewrite (lit_ids t v Tv). intros z [].
      * rewrite Ds. auto.
    + intros call rho Kc R lg rho1 E. assert (Qr : req (ov C rho) (ov C (rupd rho x v))) by (intros y; unfold ov, rupd; destruct (C y) as [[]|] eqn:Cy; [reflexivity|]; destruct (rid_eqb y x) eqn:Ey; [apply rid_eqb_ok in Ey as ->; congruence|reflexivity]). assert (Ox : ov C (rupd rho x v) x = rupd rho x v x) by (unfold ov, rupd; rewrite Cx, rid_eqb_refl; reflexivity).
      destruct (oeq_ok _ _ _ _ (exec_ext call s _ _ Qr) E) as [r2 [E2 Q3]]. destruct (Sim call (rupd rho x v) Kc (rok_put _ _ _ _ _ R Tv) Ox _ _ E2) as [lg' [u [E3 [Sl [Si Q4]]]]]. exists lg', (rupd (rupd rho x v) x u). rewrite !u_ex_cons, u_sdef, LE. cbn [obnd fst snd]. rewrite u_ex_cons, E3. cbn [obnd fst snd sexecs exec_list app]. rewrite app_nil_r. split; [reflexivity|]. split; [exact Sl|]. split; [exact Si|]. split.
      * intros y. rewrite (ov_none C (rupd rho x v) x u y). rewrite Q3, Q4. reflexivity.
      * intros y Ne. rewrite Ds in Ne. rewrite !rupd_off by congruence. reflexivity.
    + intros call rho Si Kc R E. assert (Qr : req (ov C rho) (ov C (rupd rho x v))) by (intros y; unfold ov, rupd; destruct (C y) as [[]|] eqn:Cy; [reflexivity|]; destruct (rid_eqb y x) eqn:Ey; [apply rid_eqb_ok in Ey as ->; congruence|reflexivity]). assert (Ox : ov C (rupd rho x v) x = rupd rho x v x) by (unfold ov, rupd; rewrite Cx, rid_eqb_refl; reflexivity).
      pose proof (oeq_failed _ _ (exec_ext call s _ _ Qr) E) as E2. pose proof (Fl call (rupd rho x v) Si Kc (rok_put _ _ _ _ _ R Tv) Ox E2) as E3. rewrite u_ex_cons, u_sdef, LE. cbn [obnd fst snd]. rewrite u_ex_cons, E3. reflexivity.
  - exists G2. split; [|split; [|split; [|split; [|split; [|split; [|split]]]]]].
    + apply XScons with G2; [exact Y|constructor].
    + exact K.
    + intros y u w Cy. destruct (N _ _ _ Cy) as [A B]. split; [|exact B]. unfold newv in *. rewrite Q2. unfold cput. rewrite rid_eqb_ne; [exact A|]. intros ->. rewrite Cy in Cx. discriminate Cx.
    + intros y. rewrite <- Q1. unfold cover, cput. destruct (rid_eqb y x) eqn:E; [apply rid_eqb_ok in E as ->; rewrite Cx, Q2; unfold cput; rewrite rid_eqb_refl; reflexivity|]. destruct (C y) as [[u w]|]; [reflexivity|]. rewrite Q2. unfold cput. rewrite E. reflexivity.
    + intros y Ne. rewrite Ds in Ne. rewrite Q2. unfold cput. rewrite rid_eqb_ne by congruence. auto.
    + constructor; [|constructor]. rewrite Ds. auto.
    + intros call rho Kc R lg rho1 E. destruct (Sim call rho Kc R ltac:(unfold ov; rewrite Cx; reflexivity) _ _ E) as [lg' [u [E3 [Sl [Si Q4]]]]]. exists lg', (rupd rho x u). rewrite u_ex_cons, E3. cbn [obnd fst snd sexecs exec_list]. rewrite app_nil_r. split; [reflexivity|]. split; [exact Sl|]. split; [exact Si|]. split.
      * intros y. rewrite (ov_same C rho x u Cx y), Q4. reflexivity.
      * intros y Ne. rewrite Ds in Ne. apply rupd_off. congruence.
    + intros call rho Si Kc R E. rewrite u_ex_cons, (Fl call rho Si Kc R ltac:(unfold ov; rewrite Cx; reflexivity) E). reflexivity.
Qed.
End TPropStmt.
