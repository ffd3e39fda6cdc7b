(** Reduced programs: expressions with calls, statements with loops. *)
From Coq Require Import String Ascii.
From Coq Require Import ZArith NArith List Bool Lia.
From Verif Require Import PField Interp Bits Zir CgProg UintOpt Str Abi Typed Flatten FlattenOps FlattenSim FlattenRun Writes Redefine WritesVal WritesExp ZPropStmt Src SrcTy TProp TPropOk TPropArr TPropOps TPropExp TPropStmt TPropProg Reduce ReduceRen ReduceExp ReduceStmt ReduceSimple.
Import ListNotations.
Open Scope Z_scope.

Section ReduceMain.
Context {PF : PrimeField}.
Variable funs : ftable.
Hypothesis TO : table_ok funs.
Variable ptable : Prop.
Notation dyn := (dyn funs).
Notation GoodF := (GoodF funs ptable).
Notation GoodS := (GoodS funs ptable).

(** ** Expressions without calls at the top *)
Lemma dyn_map : forall A B L G (ev : caller -> renv -> outcome (list entry * A)) ev' b (ex ex' : Prop) (h h' : A -> outcome B), dyn L G ev ev' b ex -> (ex' -> ex) -> (forall a d, h a = Ok d -> h' a = Ok d) -> (forall a, h a <> Failed) ->
  dyn L G (fun call rho => obnd (ev call rho) (fun a => obnd (h (snd a)) (fun v => Ok (fst a, v)))) (fun rho => obnd (ev' rho) (fun a => obnd (h' (snd a)) (fun v => Ok (fst a, v)))) b ex'.
Proof.
  intros A B L G ev ev' b ex ex' h h' D X Hh Hf k rho R. destruct (D k rho R) as [P F]. split.
  - intros lg v E. apply ok_inv in E as [[la a] [Ea E]]. cbn [fst snd] in E. apply ok_inv in E as [d [Ed E]]. injection E as <- <-. destruct (P _ _ Ea) as [lgb [rho' [R' [V' [Q [T K]]]]]]. exists lgb, rho'. split; [exact R'|]. split; [rewrite V'; cbn [obnd fst snd]; rewrite (Hh _ _ Ed); reflexivity|]. split; [exact Q|]. split; [intros H; exact (T (X H))|exact K].
  - intros Hx E. destruct (ev (scall funs k) rho) as [[la a]| |]; [|exact (F (X Hx) eq_refl)|discriminate E]. cbn [obnd fst snd] in E. specialize (Hf a). destruct (h a); [discriminate E|contradiction|discriminate E].
Qed.
Lemma nocalls_plains : forall l, forallb nocalls l = true -> forallb plain l = true.
Proof. intros l H. rewrite forallb_forall in *. intros e I. apply nocalls_plain, H, I. Qed.
Lemma rall_slit : forall f, Idem f -> forall es L C L' C' b es', rall f L C es = Some (L', C', b, es') -> Forall2 (fun a b : bool => a = true -> b = true) (map is_slit es) (map is_slit es').
Proof.
  intros f I. induction es as [|e es IH]; intros L C L' C' b es' E; cbn [rall] in E; [injection E as <- <- <- <-; constructor|]. destruct (f L C e) as [[[[L1 C1] b1] e']|] eqn:E1; [|discriminate E]. destruct (rall f L1 C1 es) as [[[[L2 C2] b2] r']|] eqn:E2; [|discriminate E]. injection E as <- <- <- <-. cbn [map]. constructor; [|exact (IH _ _ _ _ _ _ E2)].
  intros Q. assert (N : flatx e = true) by (destruct e as [|op [|]| | |]; try discriminate Q; [reflexivity|destruct op; discriminate Q]). apply I in E1; [|exact N]. injection E1 as _ _ _ ->. exact Q.
Qed.
Definition par_sem (k : pkind) (a : value_) (b : list value_) : outcome value_ := obnd (of_opt (nums b)) (fun ns => obnd (of_opt (par_op k ns)) (fun op => sem_op op [] [a])).
Lemma par_eq : forall call rho k e cs, seval call rho (SPar k e cs) = obnd (seval call rho e) (fun a => obnd (sevals call rho cs) (fun b => obnd (par_sem k (snd a) (snd b)) (fun d => Ok (fst a ++ fst b, d)))).
Proof.
  intros. rewrite u_seval_par. destruct (seval call rho e) as [a| |]; [|reflexivity|reflexivity]. cbn [obnd]. destruct (sevals call rho cs) as [b| |]; [|reflexivity|reflexivity]. cbn [obnd]. unfold par_sem. destruct (nums (snd b)); [|reflexivity]. cbn [of_opt obnd]. destruct (par_op k l) as [op|]; [|reflexivity]. cbn [of_opt obnd]. reflexivity.
Qed.
Definition cond_sem (vs : list value_) : outcome value_ := match vs with [VBool k; a; b] => Ok (if k then a else b) | _ => Stuck end.
Lemma cond_eq : forall call rho c x y, seval call rho (SCond c x y) = obnd (sevals call rho [c; x; y]) (fun a => obnd (cond_sem (snd a)) (fun v => Ok (fst a, v))).
Proof.
  intros. rewrite u_seval_cond, !u_el_cons. destruct (seval call rho c) as [a| |]; [|reflexivity|reflexivity]. cbn [obnd]. destruct (seval call rho x) as [b| |]; [|reflexivity|reflexivity]. cbn [obnd]. destruct (seval call rho y) as [d| |]; [|reflexivity|reflexivity]. cbn [obnd fst snd sevals eval_list]. rewrite app_nil_r. destruct (snd a); reflexivity.
Qed.
Lemma good_id : forall fr V L C G t x u L' C' b e', Inv L C G -> (fr <= L)%nat -> xty (live C G) (SId t x) u -> stable fr V (slids (SId t x)) -> Some (L, C, [], SId t x) = Some (L', C', b, e') ->
  exists G', Out L C G L' C' G' b /\ xty (live C' G') e' u /\ nocalls e' = true /\ born L (eids (SId t x)) (eids e') /\ dyn L G (fun call rho => seval call rho (SId t x)) (fun rho => seval nocall rho e') b (ptable /\ plain (SId t x) = true).
Proof.
  intros fr V L C G t x u L' C' b e' I Fr X _ E. injection E as <- <- <- <-. exists G. split; [exact (out_refl _ _ _ I)|]. split; [exact X|]. split; [reflexivity|]. split; [intros y Y; left; exact Y|]. intros k rho R. split.
  - intros lg v E. cbn [seval] in E. apply ok_inv in E as [w [Ew E]]. injection E as <- <-. exists [], rho. split; [reflexivity|]. split; [cbn [seval]; rewrite Ew; reflexivity|]. split; [constructor|]. split; auto.
  - intros _ E. cbn [seval] in E. destruct (rho x); discriminate E.
Qed.
Lemma good_par : forall fr V f, GoodF fr V f -> forall L C G k e cs t L1 C1 b1 e' L2 C2 b2 l, Inv L C G -> (fr <= L)%nat -> xty (live C G) (SPar k e cs) t -> stable fr V (slids e ++ idlist slids cs) -> f L C e = Some (L1, C1, b1, e') -> rall f L1 C1 cs = Some (L2, C2, b2, l) ->
  exists G', Out L C G L2 C2 G' (b1 ++ b2) /\ xty (live C2 G') (SPar k e' l) t /\ nocalls (SPar k e' l) = true /\ born L (eids (SPar k e cs)) (eids (SPar k e' l)) /\ dyn L G (fun call rho => seval call rho (SPar k e cs)) (fun rho => seval nocall rho (SPar k e' l)) (b1 ++ b2) (ptable /\ plain (SPar k e cs) = true).
Proof.
  intros fr V f GF L C G k e cs t L1 C1 b1 e' L2 C2 b2 l I Fr X St E1 E2. remember (live C G) as CG eqn:ECG. inversion X as [| |S0 k0 e0 cs0 te t0 us Xe Xc U Py| |]; subst.
  destruct (GF _ _ _ _ _ _ _ _ _ I Fr Xe ltac:(intros y Y; apply St, in_or_app; left; exact Y) E1) as [G1 [O1 [X1 [N1 [B1 D1]]]]]. pose proof O1 as [LL [I1 [_ [K1 _]]]].
  destruct (rall_ok funs ptable fr V f GF cs L1 C1 G1 us L2 C2 b2 l I1 ltac:(lia) (xtys_kept _ _ _ _ _ _ _ I K1 Xc) ltac:(intros y Y; apply St, in_or_app; right; exact Y) E2) as [G2 [O2 [X2 [N2 [B2 D2]]]]]. pose proof O2 as [_ [I2 [_ [K2 _]]]].
  exists G2. split; [exact (out_trans _ _ _ _ _ _ _ _ _ _ _ O1 O2)|]. split; [apply XPar with te us; try assumption; exact (proj1 ty_sub _ _ _ X1 _ (live_kept _ _ _ _ _ I1 K2))|]. split; [cbn [nocalls]; rewrite N1, N2; reflexivity|].
  split; [cbn [eids]; intros y Y; rewrite in_app_iff in *; destruct Y as [Y|Y]; [destruct (B1 y Y); auto|destruct (B2 y Y); [auto|right; lia]]|].
  refine (dyn_ext funs _ _ _ _ _ _ _ _ _ _ (dyn_seq funs _ _ _ _ _ _ _ _ _ _ _ _ _ _ _ (ptable /\ plain (SPar k e cs) = true) (par_sem k) _ _ O1 D1 D2 _ _ _ _) (fun H => H) _ _).
  - intros [Hp Hx]. cbn [plain nocalls] in Hx. apply andb_true_iff in Hx as [H1 H2]. split; split; try assumption; [exact (nocalls_plain _ H1)|exact (nocalls_plains _ H2)].
  - intros j rho rho1 Q. apply (proj2 (agree _ _ _) _ _ _ Xc). intros y u Y. apply Q. exact (live_frame _ _ _ _ _ I Y).
  - intros rho1 rho2 Q. apply (proj1 (agree _ _ _) _ _ _ X1). intros y u Y. apply Q. exact (live_frame _ _ _ _ _ I1 Y).
  - intros a b. unfold par_sem. destruct (nums b); [|discriminate]. cbn [of_opt obnd]. destruct (par_op k l0) as [op|]; [|discriminate]. cbn [of_opt obnd]. apply sem_mute.
  - intros call rho. apply par_eq.
  - intros rho. apply par_eq.
Qed.
Lemma good_op : forall fr V f, GoodF fr V f -> Idem f -> forall L C G op args t L1 C1 b1 l, Inv L C G -> (fr <= L)%nat -> xty (live C G) (SOp op args) t -> stable fr V (idlist slids args) -> rall f L C args = Some (L1, C1, b1, l) ->
  exists G', Out L C G L1 C1 G' b1 /\ xty (live C1 G') (SOp op l) t /\ nocalls (SOp op l) = true /\ born L (eids (SOp op args)) (eids (SOp op l)) /\ dyn L G (fun call rho => seval call rho (SOp op args)) (fun rho => seval nocall rho (SOp op l)) b1 (ptable /\ plain (SOp op args) = true).
Proof.
  intros fr V f GF Id L C G op args t L1 C1 b1 l I Fr X St E1. remember (live C G) as CG eqn:ECG. inversion X as [|S0 op0 args0 ts t0 Xs Oy| | |]; subst.
  destruct (rall_ok funs ptable fr V f GF args L C G ts L1 C1 b1 l I Fr Xs St E1) as [G1 [O1 [X1 [N1 [B1 D1]]]]].
  exists G1. split; [exact O1|]. split; [apply XOp with ts; assumption|]. split; [exact N1|]. split; [exact B1|].
  refine (dyn_ext funs _ _ _ _ _ _ _ _ _ _ (dyn_map _ _ _ _ _ _ _ _ (ptable /\ plain (SOp op args) = true) (sem_op op (map is_slit args)) (sem_op op (map is_slit l)) D1 _ _ _) (fun H => H) _ _).
  - intros [Hp Hx]. split; [exact Hp|exact (nocalls_plains _ Hx)].
  - intros a d. apply sem_lits. exact (rall_slit f Id _ _ _ _ _ _ _ E1).
  - intros a. apply sem_mute.
  - intros call rho. apply u_seval_op.
  - intros rho. apply u_seval_op.
Qed.
Lemma good_cond : forall fr V f, GoodF fr V f -> forall L C G c x y t L1 C1 b1 c' x' y', Inv L C G -> (fr <= L)%nat -> xty (live C G) (SCond c x y) t -> stable fr V (slids c ++ slids x ++ slids y) -> rall f L C [c; x; y] = Some (L1, C1, b1, [c'; x'; y']) ->
  exists G', Out L C G L1 C1 G' b1 /\ xty (live C1 G') (SCond c' x' y') t /\ nocalls (SCond c' x' y') = true /\ born L (eids (SCond c x y)) (eids (SCond c' x' y')) /\ dyn L G (fun call rho => seval call rho (SCond c x y)) (fun rho => seval nocall rho (SCond c' x' y')) b1 (ptable /\ plain (SCond c x y) = true).
Proof.
  intros fr V f GF L C G c x y t L1 C1 b1 c' x' y' I Fr X St E1. remember (live C G) as CG eqn:ECG. inversion X as [| | |S0 c0 x0 y0 t0 Xc Xx Xy|]; subst.
  destruct (rall_ok funs ptable fr V f GF [c; x; y] L C G [CBool; t; t] L1 C1 b1 [c'; x'; y'] I Fr ltac:(repeat constructor; assumption) ltac:(cbn [idlist]; rewrite app_nil_r; exact St) E1) as [G1 [O1 [X1 [N1 [B1 D1]]]]].
  exists G1. split; [exact O1|]. inversion X1 as [|S1 e1 r1 t1 ts1 Xa X1']; subst. inversion X1' as [|S1 e1 r1 t1 ts1 Xb X1'']; subst. inversion X1'' as [|S1 e1 r1 t1 ts1 Xd _]; subst. split; [constructor; assumption|]. split; [cbn [forallb] in N1; rewrite andb_true_r, andb_assoc in N1; exact N1|]. split; [cbn [idlist] in B1; rewrite !app_nil_r in B1; exact B1|].
  refine (dyn_ext funs _ _ _ _ _ _ _ _ _ _ (dyn_map _ _ _ _ _ _ _ _ (ptable /\ plain (SCond c x y) = true) cond_sem cond_sem D1 _ _ _) (fun H => H) _ _).
  - intros [Hp Hx]. split; [exact Hp|]. apply nocalls_plains. cbn [plain nocalls] in Hx. cbn [forallb]. rewrite andb_true_r, andb_assoc. exact Hx.
  - auto.
  - intros a. unfold cond_sem. destruct a as [|[] [|? [|? [|]]]]; discriminate.
  - intros call rho. apply cond_eq.
  - intros rho. apply cond_eq.
Qed.
End ReduceMain.
