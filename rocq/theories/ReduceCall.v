(** Reduced loops and calls. *)
From Coq Require Import String Ascii.
From Coq Require Import ZArith NArith List Bool Lia.
From Verif Require Import PField Interp Bits Zir CgProg UintOpt Str Abi Typed Flatten FlattenOps FlattenSim FlattenRun Writes Redefine WritesVal WritesExp ZPropStmt Src SrcTy TProp TPropOk TPropArr TPropOps TPropExp TPropStmt TPropProg Reduce ReduceRen ReduceExp ReduceStmt ReduceSimple ReduceMain ReduceBody.
Import ListNotations.
Open Scope Z_scope.

Section ReduceCall.
Context {PF : PrimeField}.
Variable funs : ftable.
Hypothesis TO : table_ok funs.
Variable ptable : Prop.
Notation dyn := (dyn funs).
Notation GoodF := (GoodF funs ptable).
Notation GoodS := (GoodS funs ptable).
Notation GoodT := (GoodT funs ptable).
Notation Post := (Post funs).

Lemma rel_kept : forall fr V L C G C' G' S, (fr <= L)%nat -> kept L C C' G G' -> Rel fr V C G S -> Rel fr V C' G' S.
Proof. intros fr V L C G C' G' S Fr K R y t E. destruct (R y t E) as [A B]. split; [exact A|]. unfold cover in *. destruct (K (now fr V y) Fr) as [-> ->]. exact B. Qed.
Lemma vi_kept : forall fr V L C G C' G', (fr <= L)%nat -> kept L C C' G G' -> VI fr V C G -> VI fr V C' G'.
Proof. intros fr V L C G C' G' Fr K R y t Fy E. apply (R y t Fy). unfold cover in *. destruct (K y ltac:(lia)) as [A B]. rewrite A, B in E. exact E. Qed.
Lemma vals_kept : forall fr V L C G C' G' rho rho' S rs, (fr <= L)%nat -> kept L C C' G G' -> (forall y, (rframe y <= L)%nat -> rho' y = rho y) -> Vals fr V C rho S rs -> Vals fr V C' rho' S rs.
Proof. intros fr V L C G C' G' rho rho' S rs Fr K Q Vs y t E. rewrite <- (Vs y t E). unfold ov. rewrite (proj1 (K (now fr V y) Fr)), (Q (now fr V y) Fr). reflexivity. Qed.
(** an expression of the source, renamed, propagated, reduced *)
Lemma slice_ok : forall fr V f, GoodF fr V f -> forall L C G S e t L' C' b e', Inv L C G -> (fr <= L)%nat -> Rel fr V C G S -> xty S e t -> rslice fr V f L C e = Some (L', C', b, e') ->
  exists G', Out L C G L' C' G' b /\ xty (live C' G') e' t /\ nocalls e' = true /\ (forall y, In y (eids e') -> rframe y = fr \/ (L < rframe y)%nat) /\
  forall k rho rs, rok G rho -> Vals fr V C rho S rs ->
  (forall lg v, seval (scall funs k) rs e = Ok (lg, v) -> exists lgb rho', sexecs nocall rho b = Ok (lgb, rho') /\ seval nocall rho' e' = Ok ([], v) /\ sublog lgb lg /\ (ptable /\ plain e = true -> lgb = lg) /\ (forall y, (rframe y <= L)%nat -> rho' y = rho y)) /\
  (ptable /\ plain e = true -> seval (scall funs k) rs e = Failed -> sexecs nocall rho b = Failed).
Proof.
  intros fr V f GF L C G S e t L' C' b e' I Fr R X E. unfold rslice in E. pose proof (proj1 (ren_ty (cover C G) (now fr V)) _ _ _ X (rel_ren _ _ _ _ _ R)) as X'.
  assert (St : stable fr V (slids (ren (now fr V) e))). { intros y Y. rewrite ren_slids in Y. apply in_map_iff in Y as [z [<- Z]]. reflexivity. }
  destruct (rsand_ok funs TO ptable fr V f GF _ _ _ _ _ _ _ _ _ I Fr X' St E) as [G' [O [Xe [N [B D]]]]]. exists G'. split; [exact O|]. split; [exact Xe|]. split; [exact N|].
  split; [intros y Y; destruct (B y Y) as [Z|Z]; [left; rewrite ren_eids in Z; apply in_map_iff in Z as [z [<- _]]; reflexivity|right; exact Z]|]. intros k rho rs Rk Vs. destruct (D k rho Rk) as [P F]. rewrite (vals_eval _ _ _ _ _ _ _ _ _ Vs X), ren_plain in *. split; [exact P|exact F].
Qed.
Lemma unum_32 : forall S e z, xty S e U32 -> unum e = Some z -> 0 <= z < 2 ^ 32 /\ forall call rho, seval call rho e = Ok ([], VUint W32 z).
Proof.
  intros S e z X U. apply unum_ok in U as [w ->]. inversion X as [|S0 op args ts t Xs Oy| | |]; subst. inversion Oy; subst. split; [assumption|reflexivity].
Qed.
Lemma for_good : forall fr fe fs, (forall V, GoodF fr V (fe V)) -> GoodT fr fs -> forall L C V G S x a b body S1 L1 C1 b1 a' b' i j L2 C2 V2 b2, Inv L C G -> (fr <= L)%nat -> Rel fr V C G S -> VI fr V C G -> xsty S (SFor x a b body) S1 -> forallb srcok body = true ->
  rall (rslice fr V (fe V)) L C [a; b] = Some (L1, C1, b1, [a'; b']) -> unum a' = Some i -> unum b' = Some j -> riter fs x body L1 C1 V (zrange i j) = Some (L2, C2, V2, b2) ->
  Post fr V L C G S L2 V2 C2 S1 (b1 ++ b2) (fun call rs => sexec call rs (SFor x a b body)) (ptable /\ splain (SFor x a b body) = true).
Proof.
  intros fr fe fs GF GT L C V G S x a b body S1 L1 C1 b1 a' b' i j L2 C2 V2 b2 I Fr R Vi X Sk E Ui Uj Er. inversion X as [| | | | |S0 Sb x0 a0 bb body0 Nx Xa Xb Xs]; subst. cbn [rall] in E.
  destruct (rslice fr V (fe V) L C a) as [[[[La Ca] ba] ea]|] eqn:Ea; [|discriminate E]. destruct (rslice fr V (fe V) La Ca b) as [[[[Lb Cb] bb] eb]|] eqn:Eb; [|discriminate E]. rewrite app_nil_r in E. injection E as <- <- <- <- <-.
  destruct (slice_ok fr V (fe V) (GF V) L C G S1 a U32 La Ca ba ea I Fr R Xa Ea) as [Ga [Oa [Xea [Na [_ Da]]]]]. pose proof Oa as [LLa [Ia [Xba [Ka Nba]]]]. assert (Fl : (fr <= La)%nat) by lia. pose proof (rel_kept _ _ _ _ _ _ _ _ Fr Ka R) as Ra. pose proof (vi_kept _ _ _ _ _ _ _ Fr Ka Vi) as Via.
  destruct (slice_ok fr V (fe V) (GF V) La Ca Ga S1 b U32 Lb Cb bb eb Ia ltac:(lia) Ra Xb Eb) as [Gb [Ob [Xeb [Nb [_ Db]]]]]. pose proof Ob as [LLb [Ib [Xbb [Kb Nbb]]]]. pose proof (rel_kept _ _ _ _ _ _ _ _ Fl Kb Ra) as Rb. pose proof (vi_kept _ _ _ _ _ _ _ Fl Kb Via) as Vib.
  destruct (unum_32 _ _ _ Xea Ui) as [Hi Si]. destruct (unum_32 _ _ _ Xeb Uj) as [Hj Sj].
  assert (Hk : Forall (fun k => 0 <= k < 2 ^ 32) (zrange i j)) by (apply Forall_forall; intros k Ik; apply zrange_in in Ik; lia).
  destruct (iter_post funs ptable fr fs GT x body S1 Sb Nx Xs Sk (zrange i j) Lb Cb V Gb L2 C2 V2 b2 Hk Ib ltac:(lia) Rb Vib Er) as [G2 [LL2 [I2 [X2 [N2 [K2 [R2 [Vi2 Sm]]]]]]]].
  pose proof (out_trans _ _ _ _ _ _ _ _ _ _ _ Oa Ob) as O. pose proof O as [LO [_ [XO [KO NO]]]].
  exists G2. split; [lia|]. split; [exact I2|]. split; [exact (app_ty _ _ _ _ _ XO X2)|]. split; [rewrite forallb_app, NO, N2; reflexivity|]. split; [intros y Y Ny; destruct (KO y Y); destruct (K2 y ltac:(lia) Ny); split; congruence|]. split; [exact R2|]. split; [exact Vi2|].
  intros k rho rs Rk Vs. destruct (Da k rho rs Rk Vs) as [Pa Fa]. rewrite u_for. split.
  - intros lg rs1 Ev. apply ok_inv in Ev as [[la va] [E1 Ev]]. apply ok_inv in Ev as [[lb vb] [E2 Ev]]. cbn [fst snd] in Ev. destruct (Pa _ _ E1) as [l1 [r1 [X1 [Y1 [Q1 [T1 Kr1]]]]]]. pose proof (rok_out _ _ _ _ _ _ _ _ _ _ Oa Rk X1) as Rk1. pose proof (vals_kept _ _ _ _ _ _ _ _ _ _ _ Fr Ka Kr1 Vs) as Vs1. destruct (Db k r1 rs Rk1 Vs1) as [Pb _]. destruct (Pb _ _ E2) as [l2 [r2 [X2' [Y2 [Q2 [T2 Kr2]]]]]]. pose proof (rok_out _ _ _ _ _ _ _ _ _ _ Ob Rk1 X2') as Rk2. pose proof (vals_kept _ _ _ _ _ _ _ _ _ _ _ Fl Kb Kr2 Vs1) as Vs2.
    rewrite Si in Y1. injection Y1 as <-. rewrite Sj in Y2. injection Y2 as <-. apply ok_inv in Ev as [[lr rr] [E3 Ev]]. cbn [fst snd] in Ev. injection Ev as <- <-. destruct (Sm k r2 rs Rk2 Vs2) as [Pm _]. destruct (Pm _ _ E3) as [l3 [r3 [X3 [W3 [Q3 [T3 Kr3]]]]]].
    exists ((l1 ++ l2) ++ l3), r3. split; [exact (run_app _ _ _ _ _ _ _ _ (run_app _ _ _ _ _ _ _ _ X1 X2') X3)|]. split; [exact W3|]. rewrite <- app_assoc. split; [apply sub_app; [exact Q1|apply sub_app; assumption]|]. split.
    + intros [Hp Hx]. cbn [splain] in Hx. rewrite !andb_true_iff in Hx. destruct Hx as [[H1 H2] H3]. rewrite (T1 (conj Hp H1)), (T2 (conj Hp H2)), (T3 (conj Hp H3)). reflexivity.
    + intros y Y Ny. rewrite Kr3 by (try exact Ny; lia). rewrite Kr2 by lia. apply Kr1, Y.
  - intros [Hp Hx] Ev. cbn [splain] in Hx. rewrite !andb_true_iff in Hx. destruct Hx as [[H1 H2] H3].
    destruct (seval (scall funs k) rs a) as [[la va]| |] eqn:E1; [|exact (fail_left _ _ _ _ (fail_left _ _ _ _ (Fa (conj Hp H1) eq_refl)))|discriminate Ev]. destruct (Pa _ _ eq_refl) as [l1 [r1 [X1 [Y1 [Q1 [T1 Kr1]]]]]]. pose proof (rok_out _ _ _ _ _ _ _ _ _ _ Oa Rk X1) as Rk1. pose proof (vals_kept _ _ _ _ _ _ _ _ _ _ _ Fr Ka Kr1 Vs) as Vs1. destruct (Db k r1 rs Rk1 Vs1) as [Pb Fb]. cbn [obnd fst snd] in Ev.
    destruct (seval (scall funs k) rs b) as [[lb vb]| |] eqn:E2; [|exact (fail_left _ _ _ _ (fail_right _ _ _ _ _ _ X1 (Fb (conj Hp H2) eq_refl)))|discriminate Ev]. destruct (Pb _ _ eq_refl) as [l2 [r2 [X2' [Y2 [Q2 [T2 Kr2]]]]]]. pose proof (rok_out _ _ _ _ _ _ _ _ _ _ Ob Rk1 X2') as Rk2. pose proof (vals_kept _ _ _ _ _ _ _ _ _ _ _ Fl Kb Kr2 Vs1) as Vs2. rewrite Si in Y1. injection Y1 as <-. rewrite Sj in Y2. injection Y2 as <-. cbn [obnd fst snd] in Ev.
    apply (fail_right _ _ _ _ _ _ (run_app _ _ _ _ _ _ _ _ X1 X2')). destruct (Sm k r2 rs Rk2 Vs2) as [_ Fm]. apply (Fm (conj Hp H3)). destruct (for_steps (scall funs k) x body rs (zrange i j)); [discriminate Ev|reflexivity|discriminate Ev].
Qed.
(** ** The arguments of a call *)
Lemma binds_ok : forall fr' T, (forall y t, T y = Some t -> rframe y <> fr') -> forall qs C G C' b, cok C -> cnew C G -> subctx T (cover C G) -> (forall q, In q qs -> cover C G (fr', Name (fst (fst q)), O) = None) -> NoDup (map (fun q => fst (fst q)) qs) ->
  xtys T (map snd qs) (map (fun q => snd (fst q)) qs) -> Forall good_ty (map (fun q => snd (fst q)) qs) -> forallb nocalls (map snd qs) = true -> pstmts C (map (fun q => SDef (fr', Name (fst (fst q)), O) (snd (fst q)) (snd q)) qs) = Some (C', b) ->
  exists G', xstys G b G' /\ cok C' /\ cnew C' G' /\ forallb snocalls b = true /\ (forall y, rframe y <> fr' -> C' y = C y /\ G' y = G y) /\ (forall y, cover C' G' y = cbind (cover C G) (map (fun q => ((fr', Name (fst (fst q)), O), snd (fst q))) qs) y) /\
  forall rho vs, rok G rho -> sevals nocall (ov C rho) (map snd qs) = Ok ([], vs) -> exists rho', sexecs nocall rho b = Ok ([], rho') /\ (forall y, rframe y <> fr' -> rho' y = rho y) /\ (forall y, ov C' rho' y = rbind (ov C rho) (map (fun q => (fr', Name (fst (fst q)), O)) qs) vs y).
Proof.
  intros fr' T HT. induction qs as [|[[p t] e] qs IH]; intros C G C' b K N Q Fs Nd X Gd Nc E; cbn [map pstmts] in E.
  - injection E as <- <-. exists G. split; [constructor|]. split; [exact K|]. split; [exact N|]. split; [reflexivity|]. split; [auto|]. split; [reflexivity|]. intros rho vs R E. injection E as <-. exists rho. repeat split; reflexivity.
  - cbn [fst snd] in E. destruct (pstmt C (SDef (fr', Name p, 0%nat) t e)) as [[C1 l1]|] eqn:E1; [|discriminate E]. destruct (pstmts C1 _) as [[C2 l2]|] eqn:E2; [|discriminate E]. injection E as <- <-. cbn [map fst snd] in *. inversion X as [|S0 e0 r0 t0 ts0 Xe Xr]; subst. inversion Gd as [|? ? Gt Gr]; subst. inversion Nd as [|? ? Nd1 Nd2]; subst. cbn [forallb] in Nc. apply andb_true_iff in Nc as [Nc1 Nc2].
    pose proof (Fs _ (or_introl eq_refl)) as F0. cbn [fst snd] in F0. pose proof (proj1 ty_sub _ _ _ Xe _ Q) as Xe'.
    destruct (pstmt_ok C G (SDef (fr', Name p, 0%nat) t e) _ C1 l1 K N (XDef _ _ _ _ Gt (or_introl F0) Xe') eq_refl E1) as [G1 [X1 [K1 [N1 [Q1 [So [_ [Sim Fl]]]]]]]].
    assert (Off : forall y, y <> (fr', Name p, 0%nat) -> cover C1 G1 y = cover C G y). { intros y Ny. unfold cover. destruct (So y) as [-> ->]; [cbn [sdef]; congruence|]. reflexivity. }
    assert (T1 : subctx T (cover C1 G1)). { intros y u U. rewrite Off; [exact (Q y u U)|]. intros ->. exact (HT _ _ U eq_refl). }
    assert (Fs1 : forall q, In q qs -> cover C1 G1 (fr', Name (fst (fst q)), O) = None). { intros q J. rewrite Off; [exact (Fs q (or_intror J))|]. intros [= W]. apply Nd1. apply in_map_iff. exists q. auto. }
    destruct (IH C1 G1 C2 l2 K1 N1 T1 Fs1 Nd2 Xr Gr Nc2 E2) as [G2 [X2 [K2 [N2 [M2 [O2 [Q2 D2]]]]]]].
    exists G2. split; [exact (app_ty _ _ _ _ _ X1 X2)|]. split; [exact K2|]. split; [exact N2|]. split; [rewrite forallb_app, M2, andb_true_r; refine (pstmt_nocalls _ _ _ _ K _ E1); exact Nc1|]. split; [|split].
    + intros y Ny. destruct (O2 y Ny) as [-> ->]. apply So. cbn [sdef]. intros [= <-]. exact (Ny eq_refl).
    + intros y. rewrite (Q2 y). cbn [cbind fst snd]. assert (Ec : forall ps S S', (forall z, S z = S' z) -> forall z, cbind S ps z = cbind S' ps z). { clear. induction ps as [|p ps IH]; intros S S' H z; cbn [cbind]; [apply H|]. apply IH. intros w. unfold cput. destruct (rid_eqb w (fst p)); [reflexivity|apply H]. } apply Ec. exact Q1.
    + intros rho vs R Ev. rewrite u_el_cons in Ev. apply ok_inv in Ev as [[la v] [Ea Ev]]. apply ok_inv in Ev as [[lb vr] [Eb Ev]]. cbn [fst snd] in Ev. injection Ev as Z <-. apply app_eq_nil in Z as [-> ->].
      destruct (Sim nocall rho nocall_ok R [] (rupd (ov C rho) (fr', Name p, 0%nat) v)) as [lg1 [rho1 [R1 [_ [T1' [W1 O1]]]]]]; [rewrite u_sdef, Ea; reflexivity|]. specialize (T1' nocall_silent). subst lg1. pose proof (proj2 (exec_typed nocall nocall_ok) _ _ _ X1 _ _ _ R R1) as Rk1.
      assert (Eb1 : sevals nocall (ov C1 rho1) (map snd qs) = Ok ([], vr)). { rewrite <- Eb. apply (proj2 (agree _ _ _) _ _ _ Xr). intros y u U. rewrite W1. unfold rupd. rewrite rid_eqb_ne; [reflexivity|]. intros ->. exact (HT _ _ U eq_refl). }
      destruct (D2 rho1 vr Rk1 Eb1) as [rho2 [R2 [O2' W2]]]. exists rho2. split; [exact (run_app _ _ _ _ _ _ _ _ R1 R2)|]. split.
      * intros y Ny. rewrite (O2' y Ny). apply O1. cbn [sdef]. intros [= <-]. exact (Ny eq_refl).
      * intros y. rewrite (W2 y). cbn [rbind]. assert (Eb' : forall ps ws (S S' : renv), (forall z, S z = S' z) -> forall z, rbind S ps ws z = rbind S' ps ws z). { clear. induction ps as [|p ps IH]; intros [|w ws] S S' H z; cbn [rbind]; try apply H. apply IH. intros u. unfold rupd. destruct (rid_eqb u p); [reflexivity|apply H]. } apply Eb'. exact W1.
Qed.
Lemma cbind_off : forall ps S x, ~ In x (map fst ps) -> cbind S ps x = S x.
Proof. induction ps as [|p ps IH]; intros S x N; cbn [cbind map] in *; [reflexivity|]. rewrite IH by (intros H; apply N; right; exact H). unfold cput. rewrite rid_eqb_ne; [reflexivity|]. intros ->. apply N. left. reflexivity. Qed.
Lemma gens_ty : forall gs ns S, length gs = length ns -> NoDup gs -> (forall g, In g gs -> S (src g) = None) -> Forall (fun g => 0 <= g < 2 ^ 32) ns -> xstys S (gen_defs gs ns) (cbind S (map (fun g => (src g, U32)) gs)).
Proof.
  induction gs as [|g gs IH]; intros [|z ns] S Le Nd Fs Hn; try discriminate Le; [constructor|]. inversion Nd as [|? ? Nd1 Nd2]; subst. inversion Hn as [|? ? Hn1 Hn2]; subst. unfold gen_defs. cbn [combine map fst snd cbind]. econstructor.
  - constructor; [exact Logic.I|left; apply Fs; left; reflexivity|]. apply XOp with []; [constructor|]. constructor. exact Hn1.
  - apply IH; [injection Le; auto|exact Nd2| |exact Hn2]. intros h H. unfold cput. rewrite rid_eqb_ne; [apply Fs; right; exact H|]. intros [= ->]. exact (Nd1 H).
Qed.
Lemma gens_run : forall call gs ns rs, length gs = length ns -> sexecs call rs (gen_defs gs ns) = Ok ([], rbind rs (map src gs) (map (VUint W32) ns)).
Proof.
  intros call. induction gs as [|g gs IH]; intros [|z ns] rs Le; try discriminate Le; [reflexivity|]. unfold gen_defs. cbn [combine map fst snd rbind]. rewrite u_ex_cons. cbn [sexec seval ul eval_list map sem_op obnd fst snd]. fold (gen_defs gs ns). rewrite IH by (injection Le; auto). reflexivity.
Qed.
Lemma gens_srcok : forall gs ns, forallb srcok (gen_defs gs ns) = true.
Proof. intros gs ns. apply forallb_forall. intros s H. apply in_map_iff in H as [q [<- _]]. reflexivity. Qed.
Lemma gens_splain : forall gs ns, forallb splain (gen_defs gs ns) = true.
Proof. intros gs ns. apply forallb_forall. intros s H. apply in_map_iff in H as [q [<- _]]. reflexivity. Qed.
Lemma clear_sub : forall L C y q, clear L C y = Some q -> C y = Some q.
Proof. intros L C y q. unfold clear. destruct (rframe y =? L)%nat; [discriminate|auto]. Qed.
Lemma clear_live : forall L C G, subctx (live C G) (live (clear L C) G).
Proof. intros L C G y t. unfold live, clear. destruct (rframe y =? L)%nat; [destruct (C y); [discriminate|auto]|auto]. Qed.
Lemma clear_inv : forall L C G, Inv L C G -> Inv L (clear L C) G.
Proof.
  intros L C G [K [N B]]. split; [intros y t v E; exact (K _ _ _ (clear_sub _ _ _ _ E))|]. split; [intros y t v E; exact (N _ _ _ (clear_sub _ _ _ _ E))|]. intros y Y. destruct (B y Y) as [A A']. split; [|exact A']. unfold clear. destruct (rframe y =? L)%nat; [reflexivity|exact A].
Qed.
Lemma clear_out : forall L C G L' C' G' b, (L < L')%nat -> Out L C G L' C' G' b -> Out L C G L' (clear L' C') G' b.
Proof.
  intros L C G L' C' G' b Lt [LL [I [X [K N]]]]. split; [exact LL|]. split; [exact (clear_inv _ _ _ I)|]. split; [exact X|]. split; [|exact N]. intros y Y. destruct (K y Y) as [A B]. split; [|exact B]. unfold clear. destruct (rframe y =? L')%nat eqn:E; [apply Nat.eqb_eq in E; lia|exact A].
Qed.
Lemma inv_up : forall L L' C G, (L <= L')%nat -> Inv L C G -> Inv L' C G.
Proof. intros L L' C G H [K [N B]]. split; [exact K|]. split; [exact N|]. intros y Y. apply B. lia. Qed.
(** the parameters of a function and the variables they are bound to *)
Definition at0 (fr : nat) (y : rid) : rid := (fr, snd (fst y), O).
Lemma at0_eqb : forall fr x y, is_src x = true -> is_src y = true -> rid_eqb (at0 fr y) (at0 fr x) = rid_eqb y x.
Proof. intros fr x y Hx Hy. destruct (rid_eqb y x) eqn:E; [apply rid_eqb_ok in E as ->; apply rid_eqb_refl|]. apply rid_eqb_ne. intros [= H]. rewrite (src_core _ _ Hy Hx H), rid_eqb_refl in E. discriminate E. Qed.
Lemma params_rel : forall fr (ps : list (nat * cty)) S A, (forall y t, S y = Some t -> is_src y = true /\ A (at0 fr y) = Some t) ->
  forall y t, cbind S (map (fun q => (src (fst q), snd q)) ps) y = Some t -> is_src y = true /\ cbind A (map (fun q => ((fr, Name (fst q), O), snd q)) ps) (at0 fr y) = Some t.
Proof.
  intros fr. induction ps as [|p ps IH]; intros S A H y t E; cbn [map cbind fst snd] in *; [exact (H y t E)|]. apply (IH (cput S (src (fst p)) (snd p))); [|exact E]. intros z u. unfold cput. destruct (rid_eqb z (src (fst p))) eqn:Q.
  - apply rid_eqb_ok in Q as ->. intros [= <-]. split; [reflexivity|]. change (at0 fr (src (fst p))) with (fr, Name (fst p), 0%nat). rewrite rid_eqb_refl. reflexivity.
  - intros Z. destruct (H z u Z) as [Hz Az]. split; [exact Hz|]. change (fr, Name (fst p), 0%nat) with (at0 fr (src (fst p))). rewrite at0_eqb, Q by (try exact Hz; reflexivity). exact Az.
Qed.
Lemma params_vals : forall fr (ps : list (nat * cty)) vs S (A B : renv), length ps = length vs -> (forall y t, S y = Some t -> is_src y = true /\ A (at0 fr y) = B y) ->
  forall y t, cbind S (map (fun q => (src (fst q), snd q)) ps) y = Some t -> rbind A (map (fun q => (fr, Name (fst q), O)) ps) vs (at0 fr y) = rbind B (map (fun q => src (fst q)) ps) vs y.
Proof.
  intros fr. induction ps as [|p ps IH]; intros [|v vs] S A B Le H y t E; try discriminate Le; cbn [map cbind rbind fst snd] in *; [exact (proj2 (H y t E))|]. apply (IH vs (cput S (src (fst p)) (snd p))) with t; [injection Le; auto| |exact E]. intros z u. unfold cput, rupd. destruct (rid_eqb z (src (fst p))) eqn:Q.
  - apply rid_eqb_ok in Q as ->. intros _. split; [reflexivity|]. change (at0 fr (src (fst p))) with (fr, Name (fst p), 0%nat). rewrite rid_eqb_refl. reflexivity.
  - intros Z. destruct (H z u Z) as [Hz Az]. split; [exact Hz|]. change (fr, Name (fst p), 0%nat) with (at0 fr (src (fst p))). rewrite at0_eqb, Q by (try exact Hz; reflexivity). exact Az.
Qed.
Lemma param_zero : forall ps c, ver (param_versions ps) c = O.
Proof. intros ps [x|]; unfold ver, param_versions; [destruct (existsb _ _)|]; reflexivity. Qed.
Lemma cbind_in : forall ps S y t, cbind S ps y = Some t -> In y (map fst ps) \/ S y = Some t.
Proof. induction ps as [|p ps IH]; intros S y t E; cbn [cbind map] in *; [right; exact E|]. destruct (IH _ _ _ E) as [H|H]; [left; right; exact H|]. unfold cput in H. destruct (rid_eqb y (fst p)) eqn:Q; [left; left; apply rid_eqb_ok in Q; symmetry; exact Q|right; exact H]. Qed.
Hypothesis TS : forall f gs ts t gens params body ret, funs f gs ts t = Some (Here gens params body ret) -> forallb srcok body = true.
Hypothesis PT : ptable -> forall f gs ts t gens params body ret, funs f gs ts t = Some (Here gens params body ret) -> forallb splain body && plain ret = true.
Definition call_out (L : nat) (C : consts) (G : rctx) (L' : nat) (C' : consts) (G' : rctx) (b : list sstmt) (r : sexp) (t : cty) (f : nat) (ns : list Z) (ts : list cty) (args : list sexp) : Prop :=
  Out L C G L' C' G' b /\ xty (live C' G') r t /\ nocalls r = true /\ (forall y, In y (eids r) -> (L < rframe y)%nat) /\
  forall k rho vs, rok G rho -> sevals nocall rho args = Ok ([], vs) ->
  (forall lg v, scall funs k f ns ts t vs = Ok (lg, v) -> exists lgb rho', sexecs nocall rho b = Ok (lgb, rho') /\ seval nocall rho' r = Ok ([], v) /\ sublog lgb lg /\ (ptable -> lgb = lg) /\ (forall y, (rframe y <= L)%nat -> rho' y = rho y)) /\
  (ptable -> scall funs k f ns ts t vs = Failed -> sexecs nocall rho b = Failed).
Lemma fun_here : forall fs fe f ns ts t gs ps body ret L C G args C3 b3 L4 C4 V4 b4 L5 C5 b5 r, GoodT (S L) fs -> (forall V, GoodF (S L) V (fe V)) -> Inv L C G -> xtys (live C G) args ts -> forallb nocalls args = true -> Forall (fun g => 0 <= g < 2 ^ 32) ns ->
  funs f ns ts t = Some (Here gs ps body ret) -> length ps = length args -> pstmts C (bindings (S L) ps args) = Some (C3, b3) -> rstmts_ fs (S L) C3 (param_versions ps) (gen_defs gs ns ++ body) = Some (L4, C4, V4, b4) -> rslice (S L) V4 (fe V4) L4 C4 ret = Some (L5, C5, b5, r) ->
  exists G', call_out L C G L5 (clear L5 C5) G' (b3 ++ b4 ++ b5) r t f ns ts args.
Proof.
  intros fs fe f ns ts t gs ps body ret L C G args C3 b3 L4 C4 V4 b4 L5 C5 b5 r GT GF I Xa Na Hn Ef Le E3 E4 E5. pose proof (TO _ _ _ _ _ Ef) as [Lg [Ets [Gd [Nd [Sf [Xb Xr]]]]]]. subst ts. set (fr := S L) in *. pose proof I as [K [N Bd]].
  set (qs := combine ps args) in *.
  assert (Q1 : map snd qs = args /\ map (fun q => snd (fst q)) qs = map snd ps /\ map (fun q => fst (fst q)) qs = map fst ps /\ map (fun q => ((fr, Name (fst (fst q)), O), snd (fst q))) qs = map (fun q => ((fr, Name (fst q), O), snd q)) ps /\ map (fun q => (fr, Name (fst (fst q)), O)) qs = map (fun q => (fr, Name (fst q), O)) ps).
  { unfold qs. clear - Le. revert args Le. induction ps as [|p ps IH]; intros [|a args] Le; try discriminate Le; [repeat split|]. destruct (IH args ltac:(injection Le; auto)) as [A [B [D [E F]]]]. cbn [combine map fst snd]. rewrite A, B, D, E, F. repeat split. }
  destruct Q1 as [Q1 [Q2 [Q3 [Q4 Q5]]]].
  assert (Nd1 : NoDup (map fst ps)) by (clear - Nd; induction (map fst ps) as [|a l IH]; [constructor|]; cbn [app] in Nd; inversion Nd as [|? ? A B]; subst; constructor; [intros H; apply A, in_or_app; left; exact H|exact (IH B)]). assert (Nd2 : NoDup gs) by (clear - Nd; induction (map fst ps) as [|a l IH]; [exact Nd|]; cbn [app] in Nd; inversion Nd as [|? ? A B]; subst; exact (IH B)).
  destruct (binds_ok fr (live C G) ltac:(intros y u U; pose proof (live_frame _ _ _ _ _ I U); unfold fr; lia) qs C G C3 b3 K N (live_cover C G)) as [G3 [X3 [K3 [N3 [M3 [O3 [Cv3 D3]]]]]]].
  { intros q _. unfold cover. destruct (Bd (fr, Name (fst (fst q)), 0%nat)) as [-> ->]; [unfold rframe, fr; cbn [fst]; lia|reflexivity]. }
  { rewrite Q3. exact Nd1. }
  { rewrite Q1, Q2. exact Xa. }
  { rewrite Q2. exact Gd. }
  { rewrite Q1. exact Na. }
  { exact E3. }
  rewrite Q4 in Cv3. rewrite Q1, Q5 in D3.
  assert (I3 : Inv fr C3 G3). { split; [exact K3|]. split; [exact N3|]. intros y Y. destruct (O3 y ltac:(lia)) as [-> ->]. apply Bd. unfold fr in Y. lia. }
  set (S0 := cbind (fun _ => None) (map (fun q => (src (fst q), snd q)) ps)) in *.
  assert (At : forall y, now fr (param_versions ps) y = at0 fr y) by (intros y; unfold now, at0; rewrite param_zero; reflexivity).
  assert (R3 : Rel fr (param_versions ps) C3 G3 S0). { intros y u E. rewrite At, Cv3. apply (params_rel fr ps (fun _ => None)); [intros z w Z; discriminate Z|exact E]. }
  assert (Vi3 : VI fr (param_versions ps) C3 G3). { intros y u Fy E. rewrite Cv3 in E. apply cbind_in in E as [E|E].
    - rewrite map_map in E. cbn [fst] in E. apply in_map_iff in E as [q [<- J]]. exists O. cbn [fst snd]. split; [|lia]. unfold param_versions. rewrite (proj2 (existsb_exists _ _)); [reflexivity|]. exists (fst q). split; [apply in_map, J|apply Nat.eqb_refl].
    - pose proof (cover_frame _ _ _ _ _ I E). unfold fr in Fy. lia. }
  assert (Xs : xstys S0 (gen_defs gs ns ++ body) Sf). { refine (app_ty _ _ _ _ _ (gens_ty gs ns S0 Lg Nd2 _ Hn) Xb). intros g Hg. unfold S0. apply cbind_off. intros H. rewrite map_map in H. cbn [fst] in H. apply in_map_iff in H as [q [[= W] J]]. subst g. clear - Nd Hg J; induction ps as [|p ps IH]; [destruct J|]; cbn [map app] in Nd; inversion Nd as [|? ? A B]; subst; destruct J as [->|J]; [apply A; apply in_or_app; right; exact Hg|exact (IH B J)]. }
  assert (Sk : forallb srcok (gen_defs gs ns ++ body) = true) by (rewrite forallb_app, gens_srcok; exact (TS _ _ _ _ _ _ _ _ Ef)).
  destruct (stmts_post funs ptable fr fs GT _ _ _ _ _ _ _ _ _ _ _ I3 (le_n fr) R3 Vi3 Xs Sk E4) as [G4 [LL4 [I4 [X4 [M4 [K4 [R4 [Vi4 Sm4]]]]]]]].
  destruct (slice_ok fr V4 (fe V4) (GF V4) L4 C4 G4 Sf ret t L5 C5 b5 r I4 LL4 R4 Xr E5) as [G5 [O5 [X5 [M5 [B5 D5]]]]]. pose proof O5 as [LL5 [I5 [Xb5 [K5 Mb5]]]].
  assert (O : Out L C G L5 C5 G5 (b3 ++ b4 ++ b5)). { split; [unfold fr in *; lia|]. split; [exact I5|]. split; [exact (app_ty _ _ _ _ _ X3 (app_ty _ _ _ _ _ X4 Xb5))|]. split; [|rewrite !forallb_app, M3, M4, Mb5; reflexivity]. intros y Y. destruct (K5 y ltac:(unfold fr in *; lia)) as [-> ->]. destruct (K4 y ltac:(unfold fr in *; lia) ltac:(unfold fr in *; lia)) as [-> ->]. apply O3. unfold fr. lia. }
  exists G5. split; [apply clear_out; [unfold fr in *; lia|exact O]|]. split; [exact (proj1 ty_sub _ _ _ X5 _ (clear_live _ _ _))|]. split; [exact M5|]. split; [intros y Y; destruct (B5 y Y); unfold fr in *; lia|].
  assert (Pl : ptable -> forallb splain (gen_defs gs ns ++ body) = true /\ plain ret = true). { intros Hp. pose proof (PT Hp _ _ _ _ _ _ _ _ Ef) as H. apply andb_true_iff in H as [H1 H2]. split; [rewrite forallb_app, gens_splain; exact H1|exact H2]. }
  intros k rho vs R Ev. destruct k as [|k]; [split; intros; discriminate|]. cbn [scall]. rewrite Ef.
  assert (Lv : length ps = length vs). { assert (H : forall l ws lg, sevals nocall rho l = Ok (lg, ws) -> length l = length ws). { clear. induction l as [|e l IH]; intros ws lg E; [injection E as _ <-; reflexivity|]. rewrite u_el_cons in E. apply ok_inv in E as [a [_ E]]. apply ok_inv in E as [[lb b] [E2 E]]. injection E as _ <-. cbn [length fst snd]. f_equal. exact (IH _ _ E2). } rewrite Le. exact (H _ _ _ Ev). }
  rewrite Lv, Lg, !Nat.eqb_refl. cbn [andb].
  assert (Ev' : sevals nocall (ov C rho) args = Ok ([], vs)) by (rewrite <- Ev; apply (proj2 (agree _ _ _) _ _ _ Xa); intros y u U; exact (live_ov _ _ _ _ _ U)).
  destruct (D3 rho vs R Ev') as [rho3 [R3' [Kr3 W3]]]. pose proof (proj2 (exec_typed nocall nocall_ok) _ _ _ X3 _ _ _ R R3') as Rk3.
  assert (Vs3 : Vals fr (param_versions ps) C3 rho3 S0 (rbind (fun _ => None) (map (fun q => src (fst q)) ps) vs)). { intros y u E. rewrite At, W3. apply (params_vals fr ps vs (fun _ => None) (ov C rho) (fun _ => None) Lv) with u; [intros z w Z; discriminate Z|exact E]. }
  destruct (Sm4 k rho3 _ Rk3 Vs3) as [P4 F4].
  assert (Rn : forall rs, sexecs (scall funs k) rs (gen_defs gs ns ++ body) = sexecs (scall funs k) (rbind rs (map src gs) (map (VUint W32) ns)) body). { intros rs. rewrite app_ex, gens_run by exact Lg. cbn [obnd fst snd app]. destruct (sexecs (scall funs k) (rbind rs (map src gs) (map (VUint W32) ns)) body) as [[]| |]; reflexivity. }
  rewrite Rn in P4, F4. split.
  - intros lg v Ec. apply ok_inv in Ec as [[la ra] [Ea Ec]]. apply ok_inv in Ec as [[lb vb] [Eb Ec]]. cbn [fst snd] in *. injection Ec as <- <-. destruct (P4 _ _ Ea) as [l4 [rho4 [R4' [W4 [S4 [T4 Kr4]]]]]]. pose proof (proj2 (exec_typed nocall nocall_ok) _ _ _ X4 _ _ _ Rk3 R4') as Rk4. destruct (D5 k rho4 ra Rk4 W4) as [P5 _]. destruct (P5 _ _ Eb) as [l5 [rho5 [R5' [V5 [S5 [T5 Kr5]]]]]].
    exists (l4 ++ l5), rho5. split; [exact (run_app _ _ _ _ _ _ _ _ R3' (run_app _ _ _ _ _ _ _ _ R4' R5'))|]. split; [exact V5|]. split; [apply sub_app; assumption|]. split.
    + intros Hp. destruct (Pl Hp) as [H1 H2]. rewrite (T4 (conj Hp H1)), (T5 (conj Hp H2)). reflexivity.
    + intros y Y. rewrite Kr5 by (unfold fr in *; lia). rewrite Kr4 by (unfold fr in *; lia). apply Kr3. unfold fr. lia.
  - intros Hp Ec. destruct (Pl Hp) as [H1 H2]. apply (fail_right _ _ _ _ _ _ R3'). destruct (sexecs (scall funs k) _ body) as [[la ra]| |] eqn:Ea in Ec; [|apply fail_left; apply (F4 (conj Hp H1)); exact Ea|discriminate Ec]. destruct (P4 _ _ Ea) as [l4 [rho4 [R4' [W4 [S4 [T4 Kr4]]]]]]. pose proof (proj2 (exec_typed nocall nocall_ok) _ _ _ X4 _ _ _ Rk3 R4') as Rk4. destruct (D5 k rho4 ra Rk4 W4) as [_ F5]. apply (fail_right _ _ _ _ _ _ R4'). apply (F5 (conj Hp H2)). cbn [obnd fst snd] in Ec. destruct (seval (scall funs k) ra ret); [discriminate Ec|reflexivity|discriminate Ec].
Qed.
Lemma fun_flat : forall f ns ts t em u L C G args C3 b3, Inv L C G -> xtys (live C G) args ts -> forallb nocalls args = true -> funs f ns ts t = Some (Flat em u) -> pstmts C [SEmb (S L, CallId, O) u em args] = Some (C3, b3) ->
  exists G', call_out L C G (S L) (clear (S L) C3) G' b3 (match C3 (S L, CallId, O) with Some (w, v) => lit w v | None => SId u (S L, CallId, O) end) t f ns ts args.
Proof.
  intros f ns ts t em u L C G args C3 b3 I Xa Na Ef E3. pose proof (TO _ _ _ _ _ Ef) as [-> Em]. pose proof I as [K [N Bd]]. set (x := (S L, CallId, O) : rid) in *. cbn [pstmts] in E3. destruct (pstmt C (SEmb x t em args)) as [[C1 l1]|] eqn:Ep; [|discriminate E3]. rewrite app_nil_r in E3. injection E3 as <- <-.
  assert (Nv : newv (cover C G) x t). { left. unfold cover. destruct (Bd x) as [-> ->]; [unfold x, rframe; cbn [fst]; lia|reflexivity]. }
  destruct (pstmt_ok C G (SEmb x t em args) _ C1 l1 K N (XEmb _ _ _ _ _ _ Nv (proj2 ty_sub _ _ _ Xa _ (live_cover _ _)) Em) eq_refl Ep) as [G1 [X1 [K1 [N1 [Q1 [So [_ [Sim Fl]]]]]]]].
  assert (Cx : cover C1 G1 x = Some t) by (rewrite (Q1 x); unfold cput; rewrite rid_eqb_refl; reflexivity).
  assert (Of : forall y, y <> x -> C1 y = C y /\ G1 y = G y) by (intros y Ny; apply So; cbn [sdef]; congruence).
  assert (O : Out L C G (S L) C1 G1 l1). { split; [lia|]. split; [split; [exact K1|split; [exact N1|]]; intros y Y; destruct (Of y) as [-> ->]; [intros ->; unfold x, rframe in Y; cbn [fst] in Y; lia|apply Bd; lia]|]. split; [exact X1|]. split; [intros y Y; apply Of; intros ->; unfold x, rframe in Y; cbn [fst] in Y; lia|]. exact (pstmt_nocalls C (SEmb x t em args) C1 l1 K Na Ep). }
  exists G1. split; [apply clear_out; [lia|exact O]|].
  assert (R : xty (live (clear (S L) C1) G1) (match C1 x with Some (w, v) => lit w v | None => SId t x end) t /\ nocalls (match C1 x with Some (w, v) => lit w v | None => SId t x end) = true /\ (forall y, In y (eids (match C1 x with Some (w, v) => lit w v | None => SId t x end)) -> (L < rframe y)%nat) /\ (forall rho v, ov C1 rho x = Some v -> seval nocall rho (match C1 x with Some (w, v) => lit w v | None => SId t x end) = Ok ([], v))).
  { unfold cover in Cx. destruct (C1 x) as [[w v]|] eqn:E1.
    - injection Cx as ->. pose proof (K1 _ _ _ E1) as T. destruct (lit_ok _ _ T) as [A [B _]]. split; [apply A|]. split; [exact (lit_nocalls _ _ T)|]. split; [intros y Y; rewrite (lit_ids _ _ T) in Y; destruct Y|]. intros rho v' V. unfold ov in V. rewrite E1 in V. injection V as <-. apply B.
    - split; [constructor; apply clear_live; unfold live; rewrite E1; exact Cx|]. split; [reflexivity|]. split; [intros y [<-|[]]; unfold x, rframe; cbn [fst]; lia|]. intros rho v V. unfold ov in V. rewrite E1 in V. cbn [seval]. rewrite V. reflexivity. }
  destruct R as [R1 [R2 [R3 R4]]]. split; [exact R1|]. split; [exact R2|]. split; [exact R3|].
  intros k rho vs Rk Ev. destruct k as [|k]; [split; intros; discriminate|]. cbn [scall]. rewrite Ef. assert (Ev' : sevals nocall (ov C rho) args = Ok ([], vs)) by (rewrite <- Ev; apply (proj2 (agree _ _ _) _ _ _ Xa); intros y u U; exact (live_ov _ _ _ _ _ U)). split.
  - intros lg v E. apply ok_inv in E as [w [Ew E]]. injection E as <- <-. destruct (Sim nocall rho nocall_ok Rk [] (rupd (ov C rho) x w)) as [lg1 [rho1 [E1 [S1 [T1 [W1 O1]]]]]]; [cbn [sexec]; rewrite Ev'; cbn [obnd fst snd]; rewrite Ew; reflexivity|]. specialize (T1 nocall_silent). subst lg1. exists [], rho1. split; [exact E1|]. split; [apply R4; rewrite (W1 x); unfold rupd; rewrite rid_eqb_refl; reflexivity|]. split; [constructor|]. split; [reflexivity|]. intros y Y. apply O1. cbn [sdef]. intros [= <-]. unfold x, rframe in Y. cbn [fst] in Y. lia.
  - intros Hp E. apply (Fl nocall rho nocall_silent nocall_ok Rk). cbn [sexec]. rewrite Ev'. cbn [obnd fst snd]. destruct (sem_emb em vs); [discriminate E|reflexivity|discriminate E].
Qed.
Lemma unums_vals : forall S es us, xtys S es us -> forall ns, Forall (fun u => u = U32) us -> opt_list (map unum es) = Some ns -> Forall (fun g => 0 <= g < 2 ^ 32) ns /\ forall call rho, sevals call rho es = Ok ([], map (VUint W32) ns).
Proof.
  intros S. induction es as [|e es IH]; intros us X ns U E; inversion X as [|S0 e0 r0 t0 ts0 Xe Xr]; subst; cbn [map opt_list] in E; [injection E as <-; split; [constructor|reflexivity]|]. inversion U as [|? ? U1 U2]; subst. destruct (unum e) as [z|] eqn:Ez; [|discriminate E]. destruct (opt_list (map unum es)) as [l|] eqn:El; [|discriminate E]. injection E as <-.
  destruct (IH _ Xr l U2 eq_refl) as [A B]. destruct (unum_32 _ _ _ Xe Ez) as [Hz Sz]. split; [constructor; assumption|]. intros call rho. rewrite u_el_cons, Sz, B. reflexivity.
Qed.
Lemma nums_map : forall ns, nums (map (VUint W32) ns) = Some ns.
Proof. unfold nums. induction ns as [|n ns IH]; [reflexivity|]. cbn [map opt_list]. rewrite IH. reflexivity. Qed.
Lemma good_call : forall fr V fe L C G ts t f gens args u L1 C1 b1 gens' ns L2 C2 b2 args' L3 C3 b3 r, GoodF fr V fe -> Inv L C G -> (fr <= L)%nat -> xty (live C G) (SCall ts t f gens args) u -> stable fr V (idlist slids gens ++ idlist slids args) ->
  rall (rsand fe) L C gens = Some (L1, C1, b1, gens') -> opt_list (map unum gens') = Some ns -> rall (rsand fe) L1 C1 args = Some (L2, C2, b2, args') ->
  (forall G2, Inv L2 C2 G2 -> xtys (live C2 G2) args' ts -> forallb nocalls args' = true -> Forall (fun g => 0 <= g < 2 ^ 32) ns -> exists G3, call_out L2 C2 G2 L3 C3 G3 b3 r t f ns ts args') ->
  exists G', Out L C G L3 C3 G' (b1 ++ b2 ++ b3) /\ xty (live C3 G') r u /\ nocalls r = true /\ born L (eids (SCall ts t f gens args)) (eids r) /\ dyn L G (fun call rho => seval call rho (SCall ts t f gens args)) (fun rho => seval nocall rho r) (b1 ++ b2 ++ b3) (ptable /\ plain (SCall ts t f gens args) = true).
Proof.
  intros fr V fe L C G ts t f gens args u L1 C1 b1 gens' ns L2 C2 b2 args' L3 C3 b3 r GF I Fr X St E1 En E2 H. remember (live C G) as CG eqn:ECG. inversion X as [| | | |S0 ts1 t1 f1 gens1 args1 us Xg U Xa]; subst.
  pose proof (good_sf funs ptable fr V _ (rsand_ok funs TO ptable fr V fe GF)) as GS.
  destruct (rall_ok funs ptable fr V (rsand fe) GS gens L C G us L1 C1 b1 gens' I Fr Xg ltac:(intros y Y; apply St, in_or_app; left; exact Y) E1) as [G1 [O1 [X1 [N1 [B1 D1]]]]]. pose proof O1 as [LL1 [I1 [_ [K1 _]]]].
  destruct (rall_ok funs ptable fr V (rsand fe) GS args L1 C1 G1 ts L2 C2 b2 args' I1 ltac:(lia) (xtys_kept _ _ _ _ _ _ _ I K1 Xa) ltac:(intros y Y; apply St, in_or_app; right; exact Y) E2) as [G2 [O2 [X2 [N2 [B2 D2]]]]]. pose proof O2 as [LL2 [I2 [_ [K2 _]]]].
  destruct (unums_vals _ _ _ X1 ns U En) as [Hn Sn]. destruct (H G2 I2 X2 N2 Hn) as [G3 [O3 [X3 [N3 [B3 D3]]]]]. pose proof O3 as [LL3 _].
  exists G3. split; [exact (out_trans _ _ _ _ _ _ _ _ _ _ _ O1 (out_trans _ _ _ _ _ _ _ _ _ _ _ O2 O3))|]. split; [exact X3|]. split; [exact N3|]. split; [intros y Y; right; pose proof (B3 y Y); lia|].
  assert (Sa : forall k rho rho1, (forall y, (rframe y <= L)%nat -> rho1 y = rho y) -> sevals (scall funs k) rho1 args = sevals (scall funs k) rho args) by (intros k rho rho1 Q; apply (proj2 (agree _ _ _) _ _ _ Xa); intros y w Y; apply Q; exact (live_frame _ _ _ _ _ I Y)).
  intros k rho R. destruct (D1 k rho R) as [P1 F1]. rewrite u_seval_call. split.
  - intros lg v Ev. apply ok_inv in Ev as [[lg1 vg] [Eg Ev]]. apply ok_inv in Ev as [[la va] [Ea Ev]]. cbn [fst snd] in Ev. destruct (P1 _ _ Eg) as [l1 [r1 [R1 [V1 [S1 [T1 Kr1]]]]]]. rewrite Sn in V1. injection V1 as <-. rewrite nums_map in Ev. cbn [of_opt obnd] in Ev. apply ok_inv in Ev as [[lc vc] [Ec Ev]]. cbn [fst snd] in Ev. injection Ev as <- <-. pose proof (rok_out _ _ _ _ _ _ _ _ _ _ O1 R R1) as Rk1. destruct (D2 k r1 Rk1) as [P2 _]. rewrite <- (Sa k rho r1 Kr1) in Ea. destruct (P2 _ _ Ea) as [l2 [r2 [R2 [V2 [S2 [T2 Kr2]]]]]]. pose proof (rok_out _ _ _ _ _ _ _ _ _ _ O2 Rk1 R2) as Rk2.
    destruct (D3 k r2 va Rk2 V2) as [P3 _]. destruct (P3 _ _ Ec) as [l3 [r3 [R3 [V3 [S3 [T3 Kr3]]]]]]. exists (l1 ++ l2 ++ l3), r3. split; [exact (run_app _ _ _ _ _ _ _ _ R1 (run_app _ _ _ _ _ _ _ _ R2 R3))|]. split; [exact V3|]. split; [apply sub_app; [exact S1|apply sub_app; assumption]|]. split.
    + intros [Hp Hx]. cbn [plain] in Hx. apply andb_true_iff in Hx as [H1 H2]. rewrite (T1 (conj Hp (nocalls_plains _ H1))), (T2 (conj Hp H2)), (T3 Hp). reflexivity.
    + intros y Y. rewrite Kr3 by lia. rewrite Kr2 by lia. apply Kr1, Y.
  - intros [Hp Hx] Ev. cbn [plain] in Hx. apply andb_true_iff in Hx as [H1 H2]. destruct (sevals (scall funs k) rho gens) as [[lg1 vg]| |] eqn:Eg; [|exact (fail_left _ _ _ _ (F1 (conj Hp (nocalls_plains _ H1)) eq_refl))|discriminate Ev]. cbn [obnd fst snd] in Ev. destruct (P1 _ _ eq_refl) as [l1 [r1 [R1 [V1 [S1 [T1 Kr1]]]]]]. rewrite Sn in V1. injection V1 as <-. rewrite nums_map in Ev. cbn [of_opt obnd] in Ev. pose proof (rok_out _ _ _ _ _ _ _ _ _ _ O1 R R1) as Rk1. destruct (D2 k r1 Rk1) as [P2 F2]. rewrite <- (Sa k rho r1 Kr1) in Ev. apply (fail_right _ _ _ _ _ _ R1).
    destruct (sevals (scall funs k) r1 args) as [[la va]| |] eqn:Ea; [|exact (fail_left _ _ _ _ (F2 (conj Hp H2) eq_refl))|discriminate Ev]. cbn [obnd fst snd] in Ev. destruct (P2 _ _ eq_refl) as [l2 [r2 [R2 [V2 [S2 [T2 Kr2]]]]]]. pose proof (rok_out _ _ _ _ _ _ _ _ _ _ O2 Rk1 R2) as Rk2. apply (fail_right _ _ _ _ _ _ R2). destruct (D3 k r2 va Rk2 V2) as [_ F3]. apply (F3 Hp). destruct (scall funs k f ns ts u va); [discriminate Ev|reflexivity|discriminate Ev].
Qed.
(** ** All expressions and statements *)
Theorem reduce_good : forall n, (forall fr V, GoodF fr V (rexp funs n fr V)) /\ (forall fr, GoodT fr (rstmt funs n fr)).
Proof.
  induction n as [|n [GE GT]]; [split; [intros fr V L C G e t L' C' b e' _ _ _ _ E; discriminate E|intros fr L C V G S s S1 L' C' V' b _ _ _ _ _ _ E; discriminate E]|]. split.
  - intros fr V L C G e t L' C' b e' I Fr X St E. cbn [rexp] in E. destruct e as [t0 x|op args|k e cs|c x y|ts t0 f gens args].
    + exact (good_id funs ptable fr V L C G t0 x t L' C' b e' I Fr X St E).
    + destruct (rall (rexp funs n fr V) L C args) as [[[[L1 C1] b1] l]|] eqn:E1; [|discriminate E]. injection E as <- <- <- <-. exact (good_op funs ptable fr V _ (GE fr V) (rexp_idem funs n fr V) L C G op args t L1 C1 b1 l I Fr X St E1).
    + assert (GF : GoodF fr V (if is_slice k then rsand (rexp funs n fr V) else rexp funs n fr V)) by (destruct (is_slice k); [apply good_sf, rsand_ok; [exact TO|apply GE]|apply GE]).
      assert (Ef : exists L1 C1 b1 e1 L2 C2 b2 l, (if is_slice k then rsand (rexp funs n fr V) else rexp funs n fr V) L C e = Some (L1, C1, b1, e1) /\ rall (if is_slice k then rsand (rexp funs n fr V) else rexp funs n fr V) L1 C1 cs = Some (L2, C2, b2, l) /\ L' = L2 /\ C' = C2 /\ b = b1 ++ b2 /\ e' = SPar k e1 l).
      { cbn [slids] in St. destruct (is_slice k).
        - rewrite rslice_same in E by (intros y Y; apply St, in_or_app; left; exact Y). destruct (rsand (rexp funs n fr V) L C e) as [[[[L1 C1] b1] e1]|]; [|discriminate E]. rewrite good_rslices in E by (intros y Y; apply St, in_or_app; right; exact Y). destruct (rall (rsand (rexp funs n fr V)) L1 C1 cs) as [[[[L2 C2] b2] l]|] eqn:E2; [|discriminate E]. destruct (_ || _); [|discriminate E]. injection E as <- <- <- <-. exists L1, C1, b1, e1, L2, C2, b2, l. repeat split. exact E2.
        - destruct (rexp funs n fr V L C e) as [[[[L1 C1] b1] e1]|]; [|discriminate E]. destruct (rall (rexp funs n fr V) L1 C1 cs) as [[[[L2 C2] b2] l]|] eqn:E2; [|discriminate E]. cbn [negb orb] in E. injection E as <- <- <- <-. exists L1, C1, b1, e1, L2, C2, b2, l. repeat split. exact E2. }
      destruct Ef as [L1 [C1 [b1 [e1 [L2 [C2 [b2 [l [E1 [E2 [-> [-> [-> ->]]]]]]]]]]]]]. refine (good_par funs ptable fr V _ GF L C G k e cs t L1 C1 b1 e1 L2 C2 b2 l I Fr X _ E1 E2).
      intros y Y. apply St. cbn [slids]. destruct (is_slice k); [|exact Y]. apply in_app_or in Y as [Y|Y]; apply in_or_app; [left; exact (slids_eids e y Y)|right]. clear - Y. induction cs as [|d cs IH]; [destruct Y|]. cbn [idlist] in *. apply in_app_or in Y as [Y|Y]; apply in_or_app; [left; exact (slids_eids d y Y)|right; exact (IH Y)].
    + destruct (rall (rexp funs n fr V) L C [c; x; y]) as [[[[L1 C1] b1] l]|] eqn:E1; [|discriminate E]. destruct l as [|c' [|x' [|y' [|]]]]; try discriminate E. injection E as <- <- <- <-. exact (good_cond funs ptable fr V _ (GE fr V) L C G c x y t L1 C1 b1 c' x' y' I Fr X St E1).
    + destruct (rall (rsand (rexp funs n fr V)) L C gens) as [[[[L1 C1] b1] gens']|] eqn:E1; [|discriminate E]. destruct (opt_list (map unum gens')) as [ns|] eqn:En; [|discriminate E]. destruct (rall (rsand (rexp funs n fr V)) L1 C1 args) as [[[[L2 C2] b2] args']|] eqn:E2; [|discriminate E]. cbv zeta in E. destruct (funs f ns ts t0) as [[gs ps body ret|em u]|] eqn:Ef; [| |discriminate E].
      * destruct (length ps =? length args')%nat eqn:Lp; [|discriminate E]. apply Nat.eqb_eq in Lp. destruct (length gs =? length ns)%nat; [|discriminate E]. cbn [andb] in E. destruct (pstmts C2 (bindings (Datatypes.S L2) ps args')) as [[C3 b3]|] eqn:E3; [|discriminate E]. destruct (rstmts_ _ _ C3 _ _) as [[[[L4 C4] V4] b4]|] eqn:E4; [|discriminate E]. destruct (rslice _ V4 _ L4 C4 ret) as [[[[L5 C5] b5] r]|] eqn:E5; [|discriminate E]. injection E as <- <- <- <-.
        refine (good_call fr V _ L C G ts t0 f gens args t L1 C1 b1 gens' ns L2 C2 b2 args' L5 (clear L5 C5) (b3 ++ b4 ++ b5) r (GE fr V) I Fr X St E1 En E2 _). intros G2 I2 X2 N2 Hn. exact (fun_here (rstmt funs n (Datatypes.S L2)) (rexp funs n (Datatypes.S L2)) f ns ts t0 gs ps body ret L2 C2 G2 args' C3 b3 L4 C4 V4 b4 L5 C5 b5 r (GT _) (GE _) I2 X2 N2 Hn Ef Lp E3 E4 E5).
      * destruct (pstmts C2 _) as [[C3 b3]|] eqn:E3; [|discriminate E]. injection E as <- <- <- <-. refine (good_call fr V _ L C G ts t0 f gens args t L1 C1 b1 gens' ns L2 C2 b2 args' (Datatypes.S L2) (clear (Datatypes.S L2) C3) b3 _ (GE fr V) I Fr X St E1 En E2 _). intros G2 I2 X2 N2 Hn. exact (fun_flat f ns ts t0 em u L2 C2 G2 args' C3 b3 I2 X2 N2 Ef E3).
  - intros fr L C V G S s S1 L' C' V' b I Fr R Vi X Sk E.
    assert (Sim : is_for s = false -> Post fr V L C G S L' V' C' S1 b (fun call rs => sexec call rs s) (ptable /\ splain s = true)).
    { intros Nf. assert (E' : exists W s', ssa fr V s = Some (W, s') /\ V' = W /\ rsimple (rexp funs n fr W) L C s' = Some (L', C', b)). { destruct s; try discriminate Nf; cbn [rstmt] in E; destruct (ssa fr V _) as [[W s']|]; try discriminate E; destruct (rsimple _ L C s') as [[[La Ca] la]|] eqn:E1; try discriminate E; injection E as <- <- <- <-; exists W, s'; auto. }
      destruct E' as [W [s' [Es [-> Er]]]]. exact (simple_good funs TO ptable fr (fun V => rexp funs n fr V) (GE fr) (rexp_idem funs n fr) L C V G S s S1 W s' L' C' b I Fr R Vi X Sk Es Er). }
    destruct s as [x t e|x t p e|e err|fmt args|x t em args|x a b0 body]; try (exact (Sim eq_refl)). clear Sim. cbn [rstmt] in E. destruct (rall _ L C [a; b0]) as [[[[L1 C1] b1] l]|] eqn:E1; [|discriminate E]. destruct l as [|a' [|b' [|]]]; try discriminate E. destruct (unum a') as [i|] eqn:Ui; [|discriminate E]. destruct (unum b') as [j|] eqn:Uj; [|discriminate E]. destruct (_ && _); [|discriminate E]. destruct (riter _ x body L1 C1 V (zrange i j)) as [[[[L2 C2] V2] b2]|] eqn:E2; [|discriminate E]. injection E as <- <- <- <-.
    exact (for_good fr (fun V => rexp funs n fr V) (rstmt funs n fr) (GE fr) (GT fr) L C V G S x a b0 body S1 L1 C1 b1 a' b' i j L2 C2 V2 b2 I Fr R Vi X Sk E1 Ui Uj E2).
Qed.
End ReduceCall.
