(** Renamed expressions; expressions without calls. *)
From Coq Require Import String Ascii.
From Coq Require Import ZArith NArith List Bool Lia.
From Verif Require Import PField Interp Bits Zir CgProg UintOpt Str Abi Typed Flatten FlattenOps FlattenSim FlattenRun Writes Redefine WritesVal WritesExp ZPropStmt Src SrcTy TProp TPropOk TPropArr TPropOps TPropExp TPropStmt TPropProg Reduce.
Import ListNotations.
Open Scope Z_scope.

Section ReduceRen.
Context {PF : PrimeField}.

(** ** Renaming *)
Lemma slit_ren : forall f e, is_slit (ren f e) = is_slit e.
Proof. intros f [t x|op args|k e cs|c x y|ts t g a b]; try reflexivity. cbn [ren is_slit]. destruct op; try reflexivity. destruct args; reflexivity. Qed.
Lemma evals_map : forall call r1 r2 (f : sexp -> sexp) l, Forall (fun e => seval call r1 (f e) = seval call r2 e) l -> sevals call r1 (map f l) = sevals call r2 l.
Proof. intros call r1 r2 f l H. induction H as [|e l E H IH]; [reflexivity|]. cbn [map]. rewrite !u_el_cons, E, IH. reflexivity. Qed.
Lemma u_seval_par : forall call rho k e cs, seval call rho (SPar k e cs) = obnd (seval call rho e) (fun a => obnd (sevals call rho cs) (fun b => obnd (of_opt (nums (snd b))) (fun ns => obnd (of_opt (par_op k ns)) (fun op => obnd (sem_op op [] [snd a]) (fun v => Ok (fst a ++ fst b, v)))))).
Proof. reflexivity. Qed.
Lemma u_seval_cond : forall call rho c x y, seval call rho (SCond c x y) = obnd (seval call rho c) (fun a => obnd (seval call rho x) (fun b => obnd (seval call rho y) (fun d => match snd a with VBool k => Ok (fst a ++ fst b ++ fst d, if k then snd b else snd d) | _ => Stuck end))).
Proof. reflexivity. Qed.
Lemma u_seval_call : forall call rho ts t f gens args, seval call rho (SCall ts t f gens args) = obnd (sevals call rho gens) (fun g => obnd (sevals call rho args) (fun a => obnd (of_opt (nums (snd g))) (fun ns => obnd (call f ns ts t (snd a)) (fun r => Ok (fst g ++ fst a ++ fst r, snd r))))).
Proof. reflexivity. Qed.
Lemma ren_eval : forall call rho f e, seval call rho (ren f e) = seval call (fun y => rho (f y)) e.
Proof.
  intros call rho f. induction e as [t x|op args IH|k e cs IHe IHc|c x y IHc IHx IHy|ts t g a b IHa IHb] using sexp_ind'; cbn [ren].
  - reflexivity.
  - rewrite !u_seval_op, (evals_map call rho (fun y => rho (f y)) (ren f) args IH), map_map, (map_ext _ _ (slit_ren f)). reflexivity.
  - rewrite !u_seval_par, IHe, (evals_map call rho (fun y => rho (f y)) (ren f) cs IHc). reflexivity.
  - rewrite !u_seval_cond, IHc, IHx, IHy. reflexivity.
  - rewrite !u_seval_call, (evals_map call rho (fun y => rho (f y)) (ren f) a IHa), (evals_map call rho (fun y => rho (f y)) (ren f) b IHb). reflexivity.
Qed.
Lemma ren_evals : forall call rho f l, sevals call rho (map (ren f) l) = sevals call (fun y => rho (f y)) l.
Proof. intros. apply evals_map, Forall_forall. intros e _. apply ren_eval. Qed.
Lemma ren_steps : forall call rho f p, ssteps call rho (map (ren_acc f) p) = ssteps call (fun y => rho (f y)) p.
Proof. induction p as [|[i|m|k] p IH]; [reflexivity| | |]; cbn [map ren_acc ssteps]; rewrite IH, ?ren_eval; reflexivity. Qed.
Lemma ren_ty : forall (G : rctx) f, (forall S e t, xty S e t -> (forall y u, S y = Some u -> G (f y) = Some u) -> xty G (ren f e) t) /\ (forall S es ts, xtys S es ts -> (forall y u, S y = Some u -> G (f y) = Some u) -> xtys G (map (ren f) es) ts).
Proof.
  intros G f. apply xty_mut; intros; cbn [ren map].
  - constructor. auto.
  - econstructor; [|eassumption]. auto.
  - econstructor; [| | |eassumption]; eauto.
  - constructor; auto.
  - econstructor; eauto.
  - constructor.
  - constructor; auto.
Qed.
Lemma ren_path : forall (G : rctx) f S t p te, xpath S t p te -> (forall y u, S y = Some u -> G (f y) = Some u) -> xpath G t (map (ren_acc f) p) te.
Proof. intros G f S t p te H Q. induction H; cbn [map ren_acc]; [constructor|constructor; [assumption|eapply (proj1 (ren_ty G f)); eassumption|assumption]|econstructor; eassumption|econstructor; eassumption]. Qed.
Lemma idlist_map : forall g (h : rid -> rid) f l, Forall (fun e => g (f e) = map h (g e)) l -> idlist g (map f l) = map h (idlist g l).
Proof. intros g h f l H. induction H as [|e l E H IH]; [reflexivity|]. cbn [map idlist]. rewrite E, IH, map_app. reflexivity. Qed.
Lemma ren_eids : forall f e, eids (ren f e) = map f (eids e).
Proof.
  intros f. induction e as [t x|op args IH|k e cs IHe IHc|c x y IHc IHx IHy|ts t g a b IHa IHb] using sexp_ind'; cbn [ren eids map]; rewrite ?map_app.
  - reflexivity.
  - apply idlist_map, IH.
  - rewrite IHe, (idlist_map _ f _ _ IHc). reflexivity.
  - rewrite IHc, IHx, IHy. reflexivity.
  - rewrite (idlist_map _ f _ _ IHa), (idlist_map _ f _ _ IHb). reflexivity.
Qed.
Lemma ren_slids : forall f e, slids (ren f e) = map f (slids e).
Proof.
  intros f. induction e as [t x|op args IH|k e cs IHe IHc|c x y IHc IHx IHy|ts t g a b IHa IHb] using sexp_ind'; cbn [ren slids map]; rewrite ?map_app.
  - reflexivity.
  - apply idlist_map, IH.
  - destruct (is_slice k); [rewrite map_app, ren_eids, (idlist_map _ f _ cs) by (apply Forall_forall; intros e' _; apply ren_eids); reflexivity|]. rewrite map_app, IHe, (idlist_map _ f _ _ IHc). reflexivity.
  - rewrite IHc, IHx, IHy. reflexivity.
  - rewrite (idlist_map _ f _ _ IHa), (idlist_map _ f _ _ IHb). reflexivity.
Qed.
Lemma map_fixed : forall (g : sexp -> list rid) f l, Forall (fun e => (forall y, In y (g e) -> f y = y) -> ren f e = e) l -> (forall y, In y (idlist g l) -> f y = y) -> map (ren f) l = l.
Proof. intros g f l H. induction H as [|e l E H IH]; intros Q; [reflexivity|]. cbn [map idlist] in *. rewrite E, IH; [reflexivity| |]; intros y I; apply Q, in_or_app; auto. Qed.
Lemma ren_fixed : forall f e, (forall y, In y (eids e) -> f y = y) -> ren f e = e.
Proof.
  intros f. induction e as [t x|op args IH|k e cs IHe IHc|c x y IHc IHx IHy|ts t g a b IHa IHb] using sexp_ind'; cbn [ren eids]; intros Q.
  - rewrite Q by (left; reflexivity). reflexivity.
  - rewrite (map_fixed eids f args IH Q). reflexivity.
  - rewrite IHe, (map_fixed eids f cs IHc); [reflexivity| |]; intros z I; apply Q, in_or_app; auto.
  - rewrite IHc, IHx, IHy; [reflexivity| | |]; intros z I; apply Q; repeat (apply in_or_app; (left; assumption) || right); auto using in_or_app.
  - rewrite (map_fixed eids f a IHa), (map_fixed eids f b IHb); [reflexivity| |]; intros z I; apply Q, in_or_app; auto.
Qed.
(** ** Typed expressions only depend on the variables of their context *)
Lemma agree : forall call r1 r2, (forall S e t, xty S e t -> (forall y u, S y = Some u -> r1 y = r2 y) -> seval call r1 e = seval call r2 e) /\ (forall S es ts, xtys S es ts -> (forall y u, S y = Some u -> r1 y = r2 y) -> sevals call r1 es = sevals call r2 es).
Proof.
  intros call r1 r2. apply xty_mut.
  - intros S t x E Q. cbn [seval]. rewrite (Q _ _ E). reflexivity.
  - intros S op args ts t _ IH _ Q. rewrite !u_seval_op, IH by exact Q. reflexivity.
  - intros S k e cs te t us _ IH _ IHs _ _ Q. rewrite !u_seval_par, IH, IHs by exact Q. reflexivity.
  - intros S c x y t _ IHc _ IHx _ IHy Q. rewrite !u_seval_cond, IHc, IHx, IHy by exact Q. reflexivity.
  - intros S ts t f gens args us _ IHg _ _ IHa Q. rewrite !u_seval_call, IHg, IHa by exact Q. reflexivity.
  - reflexivity.
  - intros S e r t ts _ IH _ IHs Q. rewrite !u_el_cons, IH, IHs by exact Q. reflexivity.
Qed.
Lemma agree_path : forall call r1 r2 S t p te, xpath S t p te -> (forall y u, S y = Some u -> r1 y = r2 y) -> ssteps call r1 p = ssteps call r2 p.
Proof. intros call r1 r2 S t p te H Q. induction H; cbn [ssteps]; [reflexivity| | |]; rewrite IHxpath, ?(proj1 (agree call r1 r2) _ _ _ H0 Q); reflexivity. Qed.
Lemma ty_ids : (forall S e t, xty S e t -> forall y, In y (eids e) -> exists u, S y = Some u) /\ (forall S es ts, xtys S es ts -> forall y, In y (idlist eids es) -> exists u, S y = Some u).
Proof.
  apply xty_mut; cbn [eids idlist]; intros.
  - destruct H0 as [<-|[]]. eauto.
  - eauto.
  - apply in_app_or in H5 as [I|I]; eauto.
  - repeat (apply in_app_or in H5 as [I|H5]; [eauto|]); eauto.
  - apply in_app_or in H4 as [I|I]; eauto.
  - contradiction.
  - apply in_app_or in H3 as [I|I]; eauto.
Qed.

(** ** Expressions without calls *)
Fixpoint nocalls (e : sexp) : bool :=
  match e with
  | SId _ _ => true
  | SOp _ args => forallb nocalls args
  | SPar _ e cs => nocalls e && forallb nocalls cs
  | SCond c x y => nocalls c && nocalls x && nocalls y
  | SCall _ _ _ _ _ => false
  end.
Lemma evals_same : forall c1 c2 rho l, Forall (fun e => seval c1 rho e = seval c2 rho e) l -> sevals c1 rho l = sevals c2 rho l.
Proof. intros c1 c2 rho l H. induction H as [|e l E H IH]; [reflexivity|]. rewrite !u_el_cons, E, IH. reflexivity. Qed.
Lemma all_sub : forall (P : sexp -> bool) (Q : sexp -> Prop) l, Forall (fun e => P e = true -> Q e) l -> forallb P l = true -> Forall Q l.
Proof. intros P Q l H. induction H as [|e l E H IH]; intros B; [constructor|]. cbn [forallb] in B. apply andb_true_iff in B as [B1 B2]. constructor; auto. Qed.
Lemma nocalls_eval : forall c1 c2 rho e, nocalls e = true -> seval c1 rho e = seval c2 rho e.
Proof.
  intros c1 c2 rho. induction e as [t x|op args IH|k e cs IHe IHc|c x y IHc IHx IHy|ts t g a b IHa IHb] using sexp_ind'; cbn [nocalls]; intros B.
  - reflexivity.
  - rewrite !u_seval_op, (evals_same c1 c2 rho args) by (exact (all_sub _ _ _ IH B)). reflexivity.
  - apply andb_true_iff in B as [B1 B2]. rewrite !u_seval_par, IHe, (evals_same c1 c2 rho cs) by (assumption || exact (all_sub _ _ _ IHc B2)). reflexivity.
  - rewrite !andb_true_iff in B. destruct B as [[B1 B2] B3]. rewrite !u_seval_cond, IHc, IHx, IHy by assumption. reflexivity.
  - discriminate B.
Qed.
Lemma all_true : forall (P : sexp -> bool) l, Forall (fun e => P e = true) l -> forallb P l = true.
Proof. intros P l H. apply forallb_forall. apply Forall_forall. exact H. Qed.
Lemma lit_nocalls : forall t v, has_type v t -> nocalls (lit t v) = true.
Proof.
  induction t as [| |w|ty n IH|ts IH|ms IH|] using cty_ind'; intros v H; destruct v; try (cbn in H; contradiction); try reflexivity.
  - apply type_array in H as [_ H]. cbn [lit nocalls]. apply all_true. rewrite Forall_forall in *. intros e I. apply in_map_iff in I as [v [<- I]]. apply IH, H, I.
  - apply type_tuple in H. cbn [lit nocalls]. apply all_true. change (Forall (fun e => nocalls e = true) (lit_list l ts)). induction H as [|v t l ts T H IHl]; [constructor|]. inversion IH; subst. cbn [lit_list]. constructor; auto.
  - apply type_struct in H. cbn [lit nocalls]. apply all_true. change (Forall (fun e => nocalls e = true) (lit_members l ms)). induction H as [|[k v] [k' t] l ms [_ T] H IHl]; [constructor|]. inversion IH; subst. cbn [lit_members]. cbn [fst snd] in *. constructor; auto.
Qed.
Lemma selects_nocalls : forall e l, nocalls e = true -> selects e = Some l -> forallb nocalls l = true.
Proof. intros e l N E. unfold selects in E. destruct (sty e) as [[]|]; try discriminate E. injection E as <-. apply all_true, Forall_forall. intros y I. apply in_map_iff in I as [k [<- _]]. cbn [nocalls forallb ul]. rewrite N. reflexivity. Qed.
Lemma expand_nocalls : forall e sp l, nocalls e = true -> expand sp e = Some l -> forallb nocalls l = true.
Proof.
  induction e as [t x|op args IH|k e cs IHe IHc|c x y IHc IHx IHy|ts t g a b IHa IHb] using sexp_ind'; intros sp l N E; destruct sp; cbn [expand] in E; try (injection E as <-; cbn [forallb]; rewrite N; reflexivity); try (exact (selects_nocalls _ _ N E)).
  destruct op; try (exact (selects_nocalls _ _ N E)). cbn [nocalls] in N. revert spreads l E. induction IH as [|e es He H IHl]; intros sps l E; destruct sps as [|s sps]; try discriminate E; [injection E as <-; reflexivity|].
  cbn [forallb] in N. apply andb_true_iff in N as [N1 N2]. destruct (expand s e) as [a|] eqn:Ea; [|discriminate E]. match type of E with match ?m with _ => _ end = _ => destruct m as [b|] eqn:Eb; [|discriminate E] end. injection E as <-. rewrite forallb_app, (He _ _ N1 Ea). exact (IHl N2 _ _ Eb).
Qed.
Lemma expands_nocalls : forall sps es l, forallb nocalls es = true -> expands sps es = Some l -> forallb nocalls l = true.
Proof.
  induction sps as [|s sps IH]; intros [|e es] l N E; cbn [expands] in E; try discriminate E; [injection E as <-; reflexivity|]. cbn [forallb] in N. apply andb_true_iff in N as [N1 N2]. destruct (expand s e) as [a|] eqn:Ea; [|discriminate E]. destruct (expands sps es) as [b|] eqn:Eb; [|discriminate E]. injection E as <-. rewrite forallb_app, (expand_nocalls _ _ _ N1 Ea). exact (IH _ _ N2 Eb).
Qed.
Lemma nth_nocalls : forall l k e, forallb nocalls l = true -> nth_error l k = Some e -> nocalls e = true.
Proof. intros l k e H E. rewrite forallb_forall in H. apply H. exact (nth_error_In _ _ E). Qed.
Lemma splice_nocalls : forall sps es, forallb nocalls es = true -> forallb nocalls (map snd (splice sps es)) = true.
Proof.
  intros sps es H. apply all_true, Forall_forall. intros e I. apply in_map_iff in I as [[s d] [<- I]]. unfold splice in I. apply filter_In in I as [I _]. apply in_flat_map in I as [[s' d'] [J I]]. apply in_combine_r in J. rewrite forallb_forall in H. specialize (H _ J). cbn [fst snd] in *. unfold splice1 in I.
  destruct s'; [|destruct I as [I|[]]; injection I as <- <-; exact H]. destruct d' as [t x|op args|k e cs|c x y|ts t g a b]; try (destruct I as [I|[]]; injection I as <- <-; exact H). destruct op; try (destruct I as [I|[]]; injection I as <- <-; exact H). apply in_combine_r in I. cbn [nocalls] in H. rewrite forallb_forall in H. exact (H _ I).
Qed.
Ltac ncase := match goal with
  | E : Some _ = Some _ |- _ => injection E as <-
  | E : None = Some _ |- _ => discriminate E
  | E : option_map _ _ = Some _ |- _ => unfold option_map in E
  | E : context [match ?m with _ => _ end] |- _ => destruct m eqn:?
  end.
Lemma usimp_nocalls : forall w o a b e, nocalls a = true -> nocalls b = true -> usimp w o a b = Some e -> nocalls e = true.
Proof. intros w o a b e A B E. unfold usimp in E. destruct o; repeat ncase; cbn [nocalls forallb ul]; rewrite ?A, ?B; reflexivity. Qed.
Lemma psimp_nocalls : forall op args e, forallb nocalls args = true -> psimp op args = Some e -> nocalls e = true.
Proof.
  intros op args e N E.
  assert (D : forall e', Some (SOp op args) = Some e' -> nocalls e' = true) by (intros e' [= <-]; exact N).
  destruct op; cbn [psimp] in E; try (apply D; exact E).
  all: try match goal with o : fop |- _ => destruct o | o : bop |- _ => destruct o | o : tcmp |- _ => destruct o end.
  all: try (destruct args as [|a [|b [|]]]; try (apply D; exact E); assert (Na : nocalls a = true) by (cbn [forallb] in N; apply andb_true_iff in N; apply N); try (assert (Nb : nocalls b = true) by (cbn [forallb] in N; rewrite !andb_true_iff in N; apply N)); repeat ncase; try reflexivity; try assumption; cbn [nocalls forallb]; rewrite ?Na, ?Nb; reflexivity).
  - destruct args as [|a [|b [|]]]; try (apply D; exact E); cbn [forallb] in N; rewrite ?andb_true_iff in N; destruct N as [Na [Nb _]]; exact (usimp_nocalls _ _ _ _ _ Na Nb E).
  - destruct args as [|a [|i [|]]]; try (apply D; exact E). cbn [forallb] in N. rewrite ?andb_true_iff in N. destruct N as [Na [Ni _]].
    destruct a as [t x|op args|k e0 cs|c x y|ts t g l1 l2]; try (apply D; exact E). destruct op; try (apply D; exact E). destruct (unum i) as [k|]; [|apply D; exact E]. destruct (k <? Z.of_nat n); [|discriminate E]. destruct (expands spreads args) as [l|] eqn:X; [|discriminate E]. exact (nth_nocalls _ _ _ (expands_nocalls _ _ _ Na X) E).
  - destruct args as [|a [|]]; try (apply D; exact E); destruct a as [t x|op args|k e0 cs|c x y|ts t g l1 l2]; try (apply D; exact E); destruct op; try (apply D; exact E). cbn [forallb nocalls] in N. rewrite andb_true_r in N. destruct (find _ _) as [[s d]|] eqn:X; [|discriminate E]. injection E as <-. apply find_some in X as [I _]. apply in_combine_r in I. rewrite forallb_forall in N. exact (N _ I).
  - destruct args as [|a [|]]; try (apply D; exact E); destruct a as [t x|op args|j e0 cs|c x y|us t g l1 l2]; try (apply D; exact E); destruct op; try (apply D; exact E). cbn [forallb nocalls] in N. rewrite andb_true_r in N. exact (nth_nocalls _ _ _ N E).
  - injection E as <-. cbn [nocalls]. apply splice_nocalls. exact N.
Qed.
Lemma ppar_nocalls : forall k e cs e', nocalls e = true -> forallb nocalls cs = true -> ppar k e cs = Some e' -> nocalls e' = true.
Proof.
  intros k e cs e' N M E. assert (D : forall d, Some (SPar k e cs) = Some d -> nocalls d = true) by (intros d [= <-]; cbn [nocalls]; rewrite N, M; reflexivity).
  destruct k; cbn [ppar] in E; try (apply D; exact E); destruct cs as [|c [|]]; try (apply D; exact E); repeat ncase; try reflexivity; cbn [nocalls]; rewrite N, M; reflexivity.
Qed.
Lemma pexp_nocalls : forall C, cok C -> forall e e', nocalls e = true -> pexp C e = Some e' -> nocalls e' = true.
Proof.
  intros C K. assert (Q : forall l l', Forall (fun e => forall e', nocalls e = true -> pexp C e = Some e' -> nocalls e' = true) l -> forallb nocalls l = true -> opt_list (map (pexp C) l) = Some l' -> forallb nocalls l' = true).
  { intros l l' H. revert l'. induction H as [|e l He H IH]; intros l' N E; cbn [map opt_list] in E; [injection E as <-; reflexivity|]. cbn [forallb] in N. apply andb_true_iff in N as [N1 N2]. destruct (pexp C e) as [d|] eqn:X; [|discriminate E]. destruct (opt_list (map (pexp C) l)) as [r|]; [|discriminate E]. injection E as <-. cbn [forallb]. rewrite (He _ N1 eq_refl), (IH _ N2 eq_refl). reflexivity. }
  induction e as [t x|op args IH|k e cs IHe IHc|c x y IHc IHx IHy|ts t g a b IHa IHb] using sexp_ind'; intros e' N E; cbn [pexp] in E.
  - destruct (C x) as [[u v]|] eqn:Cx; injection E as <-; [exact (lit_nocalls _ _ (K _ _ _ Cx))|reflexivity].
  - destruct (opt_list (map (pexp C) args)) as [l|] eqn:X; [|discriminate E]. exact (psimp_nocalls _ _ _ (Q _ _ IH N X) E).
  - cbn [nocalls] in N. apply andb_true_iff in N as [N1 N2]. destruct (pexp C e) as [d|] eqn:X; [|discriminate E]. destruct (opt_list (map (pexp C) cs)) as [l|] eqn:Y; [|discriminate E]. exact (ppar_nocalls _ _ _ _ (IHe _ N1 eq_refl) (Q _ _ IHc N2 Y) E).
  - cbn [nocalls] in N. rewrite !andb_true_iff in N. destruct N as [[N1 N2] N3]. destruct (pexp C c) as [c'|] eqn:X; [|discriminate E]. destruct (bnum c') as [[]|]; [exact (IHx _ N2 E)|exact (IHy _ N3 E)|]. destruct (pexp C x) as [x'|] eqn:Y; [|discriminate E]. destruct (pexp C y) as [y'|] eqn:Z0; [|discriminate E]. injection E as <-. destruct (sexp_eqb x' y'); [exact (IHx _ N2 eq_refl)|]. cbn [nocalls]. rewrite (IHc _ N1 eq_refl), (IHx _ N2 eq_refl), (IHy _ N3 eq_refl). reflexivity.
  - discriminate N.
Qed.
(** ** Calls in plain positions: the whole expression, or the whole of an argument of such a call *)
Fixpoint plain (e : sexp) : bool := match e with SCall _ _ _ g a => forallb nocalls g && forallb plain a | _ => nocalls e end.
Lemma nocalls_plain : forall e, nocalls e = true -> plain e = true.
Proof. intros [t x|op args|k e cs|c x y|ts t g a b] H; try exact H. discriminate H. Qed.
Lemma ren_nocalls : forall f e, nocalls (ren f e) = nocalls e.
Proof.
  intros f. assert (Q : forall l, Forall (fun e => nocalls (ren f e) = nocalls e) l -> forallb nocalls (map (ren f) l) = forallb nocalls l) by (intros l H; induction H as [|e l E H IH]; [reflexivity|]; cbn [map forallb]; rewrite E, IH; reflexivity).
  induction e as [t x|op args IH|k e cs IHe IHc|c x y IHc IHx IHy|ts t g a b IHa IHb] using sexp_ind'; cbn [ren nocalls]; [reflexivity|exact (Q _ IH)|rewrite IHe, (Q _ IHc); reflexivity|rewrite IHc, IHx, IHy; reflexivity|reflexivity].
Qed.
Lemma ren_plain : forall f e, plain (ren f e) = plain e.
Proof.
  intros f. induction e as [t x|op args IH|k e cs IHe IHc|c x y IHc IHx IHy|ts t g a b IHa IHb] using sexp_ind'.
  - reflexivity.
  - exact (ren_nocalls f (SOp op args)).
  - exact (ren_nocalls f (SPar k e cs)).
  - exact (ren_nocalls f (SCond c x y)).
  - cbn [ren plain]. assert (A : forallb nocalls (map (ren f) a) = forallb nocalls a) by (clear; induction a as [|e l IH]; [reflexivity|]; cbn [map forallb]; rewrite ren_nocalls, IH; reflexivity). rewrite A.
  assert (B : forallb plain (map (ren f) b) = forallb plain b) by (induction IHb as [|e l E H IH]; [reflexivity|]; cbn [map forallb]; rewrite E, IH; reflexivity). rewrite B. reflexivity.
Qed.
End ReduceRen.
