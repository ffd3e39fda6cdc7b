(** The end of semantic analysis, /repo/zokrates_analysis/src/lib.rs:196-214: panic extraction, dead code elimination, uint
    optimisation; followed by compilation. *)
From Coq Require Import ZArith NArith List Bool Lia.
From Verif Require Import PField SMap IR IRSpec Wf Interp Optimizer OptimizerProofs OptPipeline OptExtra Bits Flat FlatProofs Zir Codegen CgBase CgGadgets CgExpr CgStmt CgEmit CgProg CgWf CgEnd
  UintOpt UintOptProofs Panic DeadCode.
Import ListNotations.
Open Scope Z_scope.

Local Notation safe_stmt := (CgProg.safe_stmt True).
Local Notation safe_stmts := (CgProg.safe_stmts True).
Local Notation sstep := (CgProg.sstep True).
Section Source.
Context {PF : PrimeField}.
(** lib.rs:200-211 (the AssemblyTransformer that follows only touches assembly blocks) *)
Definition analyse (p : zprog) : option zprog := uint_optimize (eliminate (extract_panics p)).

(** ** The uint optimiser only changes annotations *)
Definition same (e e' : zexp) : Prop := (forall rho, sem rho e' = sem rho e) /\ (forall rho, divs rho e' <-> divs rho e) /\ is_lit e' = is_lit e.
Lemma same_refl : forall e, same e e.
Proof. intros e. split; [auto|split; [tauto|auto]]. Qed.
Lemma same_trans : forall a b c, same a b -> same b c -> same a c.
Proof. intros a b c [A1 [A2 A3]] [B1 [B2 B3]]. split; [intros; rewrite B1; auto|]. split; [intros; rewrite B2; auto|congruence]. Qed.
Lemma set_same : forall e a a', uann e = Some a -> uw a' = uw a -> same e (set_ann a' e).
Proof.
  intros e a a' H E. apply kind_KU in H. split; [|split]; destruct e; try destruct k; cbn in *; try discriminate H; try injection H as <-; intros; rewrite ?E; auto; try tauto.
Qed.
Lemma reduce_same : forall e e', force_reduce e = Some e' -> same e e'.
Proof. intros e e' H. unfold force_reduce in H. destruct (uann e) as [a|] eqn:E; [|discriminate]. injection H as <-. eapply set_same; eauto. Qed.
Lemma no_reduce_same : forall e e', force_no_reduce e = Some e' -> same e e'.
Proof. intros e e' H. unfold force_no_reduce in H. destruct (uann e) as [a|] eqn:E; [|discriminate]. cbn [obind] in H. destruct (ured a); try discriminate; injection H as <-; eapply set_same; eauto. Qed.
Lemma force_same : forall b e e', force b e = Some e' -> same e e'.
Proof. intros [] e e' H; [apply reduce_same|apply no_reduce_same]; auto. Qed.
Lemma mapO_inv : forall A B (f : A -> option B) l l', mapO f l = Some l' -> Forall2 (fun a b => f a = Some b) l l'.
Proof.
  intros A B f. induction l as [|a l IH]; intros l' H; [injection H as <-; constructor|]. change (obind (f a) (fun b => obind (mapO f l) (fun s => Some (b :: s))) = Some l') in H.
  destruct (f a) as [b|] eqn:E; [|discriminate]. cbn [obind] in H. destruct (mapO f l) as [s|]; [|discriminate]. injection H as <-. constructor; auto.
Qed.
Lemma sames_map : forall l l' rho, Forall2 same l l' -> map (sem rho) l' = map (sem rho) l.
Proof. induction 1 as [|a b l l' [H1 _] _ IH]; [reflexivity|]. cbn [map]. rewrite H1, IH. reflexivity. Qed.
Lemma sames_divs : forall l l' rho, Forall2 same l l' -> (Forall (divs rho) l' <-> Forall (divs rho) l).
Proof. induction 1 as [|a b l l' [_ [H1 _]] _ IH]; [split; auto|]. split; intros X; inversion X; subst; constructor; try (apply H1; auto); apply IH; auto. Qed.
Lemma sames_trans : forall a b c, Forall2 same a b -> Forall2 same b c -> Forall2 same a c.
Proof. intros a b c H. revert c. induction H; intros c H2; inversion H2; subst; constructor; eauto using same_trans. Qed.
Lemma sel_same : forall k k' es es' i i', Forall2 same es es' -> same i i' -> same (ZSel k es i) (ZSel k' es' i').
Proof.
  intros k k' es es' i i' H [I1 [I2 _]]. split; [intros rho; cbn [sem]; rewrite I1, (sames_map _ _ rho H); reflexivity|]. split; [|reflexivity].
  intros rho. cbn [divs]. rewrite !divs_go, I2, (sames_divs _ _ rho H). reflexivity.
Qed.
Lemma cond_same : forall k k' c c' x x' y y', same c c' -> same x x' -> same y y' -> same (ZCond k c x y) (ZCond k' c' x' y').
Proof.
  intros k k' c c' x x' y y' [C1 [C2 _]] [X1 [X2 _]] [Y1 [Y2 _]]. split; [intros rho; cbn [sem]; rewrite C1, X1, Y1; reflexivity|]. split; [|reflexivity].
  intros rho. cbn [divs]. rewrite C2, X2, Y2. reflexivity.
Qed.
Ltac ob H := match type of H with
  | oassert ?b _ = Some _ => destruct b; cbn [oassert] in H; [|discriminate H]
  | obind ?m _ = Some _ => let E := fresh "E" in destruct m eqn:E; cbn [obind] in H; [|discriminate H]
  end.
Lemma uo_same : forall e M e', uo M e = Some e' -> same e e'.
Proof.
  induction e using zexp_ind'; intros M e' H0.
  1-2: injection H0 as <-; apply same_refl.
  - cbn [uo] in H0. ob H0. injection H0 as <-. split; [reflexivity|]. split; [reflexivity|reflexivity].
  - destruct k; cbn [uo] in H0; try (injection H0 as <-; apply same_refl). ob H0. ob H0. injection H0 as <-. split; [reflexivity|]. split; reflexivity.
  - cbn [uo] in H0. ob H0. ob H0. injection H0 as <-. apply IHe1 in E as [A1 [A2 _]]. apply IHe2 in E0 as [B1 [B2 _]].
    split; [intros rho; cbn [sem]; rewrite A1, B1; reflexivity|]. split; [intros rho; cbn [divs]; rewrite A2, B2, B1; reflexivity|reflexivity].
  - cbn [uo] in H0. ob H0. injection H0 as <-. apply IHe in E as [A1 [A2 _]]. split; [intros rho; cbn [sem]; rewrite A1; reflexivity|]. split; [exact A2|reflexivity].
  - cbn [uo] in H0. ob H0. ob H0. apply IHe1 in E. apply IHe2 in E0.
    assert (G : forall l r, same z l -> same z0 r -> same (ZCmp op e1 e2) (ZCmp op l r)).
    { intros l r Hl Hr. pose proof (same_trans _ _ _ E Hl) as [A1 [A2 A3]]. pose proof (same_trans _ _ _ E0 Hr) as [B1 [B2 B3]].
      split; [intros rho; cbn [sem]; rewrite A1, B1; unfold fcmp_defined; rewrite A3, B3; reflexivity|]. split; [intros rho; cbn [divs]; rewrite A2, B2; reflexivity|reflexivity]. }
    destruct op; try (injection H0 as <-; apply G; apply same_refl); (ob H0; ob H0; injection H0 as <-; apply G; apply reduce_same; assumption).
  - cbn [uo] in H0. ob H0. ob H0. injection H0 as <-. apply IHe1 in E as [A1 [A2 _]]. apply IHe2 in E0 as [B1 [B2 _]].
    split; [intros rho; cbn [sem]; rewrite A1, B1; reflexivity|]. split; [intros rho; cbn [divs]; rewrite A2, B2; reflexivity|reflexivity].
  - cbn [uo] in H0. ob H0. injection H0 as <-. apply IHe in E as [A1 [A2 _]]. split; [intros rho; cbn [sem]; rewrite A1; reflexivity|]. split; [exact A2|reflexivity].
  - cbn [uo] in H0. do 8 ob H0. injection H0 as <-. apply IHe1 in E. apply IHe2 in E0. apply force_same in E4, E5.
    pose proof (same_trans _ _ _ E E4) as [A1 [A2 _]]. pose proof (same_trans _ _ _ E0 E5) as [B1 [B2 _]].
    split; [intros rho; cbn [sem uw with_max]; rewrite A1, B1; reflexivity|]. split; [intros rho; cbn [divs]; rewrite A2, B2; reflexivity|reflexivity].
  - cbn [uo] in H0. do 3 ob H0. injection H0 as <-. apply IHe in E. apply reduce_same in E0. pose proof (same_trans _ _ _ E E0) as [A1 [A2 _]].
    split; [intros rho; cbn [sem uw with_max]; rewrite A1; reflexivity|]. split; [exact A2|reflexivity].
  - cbn [uo] in H0. do 4 ob H0. injection H0 as <-. apply IHe in E. apply reduce_same in E1. pose proof (same_trans _ _ _ E E1) as [A1 [A2 _]].
    split; [intros rho; cbn [sem uw with_max]; rewrite A1; reflexivity|]. split; [exact A2|reflexivity].
  - cbn [uo] in H0. do 4 ob H0. injection H0 as <-. apply IHe in E. apply reduce_same in E1. pose proof (same_trans _ _ _ E E1) as [A1 [A2 _]].
    split; [intros rho; cbn [sem uw with_max]; rewrite A1; reflexivity|]. split; [exact A2|reflexivity].
  - destruct k as [| |a]; cbn [uo] in H0; repeat ob H0; injection H0 as <-;
      match goal with X : uo M e1 = _, Y : uo M e2 = _, Z : uo M e3 = _ |- _ => apply IHe1 in X; apply IHe2 in Y; apply IHe3 in Z end; apply cond_same; auto;
      repeat match goal with X : force_no_reduce _ = _ |- _ => apply no_reduce_same in X end; eauto using same_trans.
  - cbn [uo] in H0. rewrite uo_sel_go in H0. do 3 ob H0. apply IHe in E0. apply reduce_same in E1. apply mapO_inv in E.
    assert (G : Forall2 same es l) by (clear - E H; induction E; constructor; inversion H; subst; eauto).
    destruct k as [| |a]; [injection H0 as <-; apply sel_same; eauto using same_trans|injection H0 as <-; apply sel_same; eauto using same_trans|].
    do 3 ob H0. injection H0 as <-. apply sel_same; [|eauto using same_trans]. apply mapO_inv in E2. eapply sames_trans; [exact G|].
    clear - E2. induction E2; constructor; auto using no_reduce_same.
Qed.
Lemma uo_out_same : forall M e e', uo_out M e = Some e' -> same e e'.
Proof.
  intros M e e' H. unfold uo_out in H. ob H. apply uo_same in E. destruct (zkind z); [injection H as <-; auto|injection H as <-; auto|]. apply reduce_same in H. eauto using same_trans.
Qed.
Lemma uo_outs_same : forall M es es', mapO (uo_out M) es = Some es' -> Forall2 same es es'.
Proof. intros M es es' H. apply mapO_inv in H. induction H; constructor; auto. eapply uo_out_same; eauto. Qed.
Lemma uos_same : forall M es es', mapO (uo M) es = Some es' -> Forall2 same es es'.
Proof. intros M es es' H. apply mapO_inv in H. induction H; constructor; auto. eapply uo_same; eauto. Qed.
Lemma sames_list : forall es es' rho, Forall2 same es es' -> sem_list rho es' = sem_list rho es.
Proof. intros es es' rho H. unfold sem_list. rewrite (sames_map _ _ rho H). reflexivity. Qed.
Definition same_s (s s' : zstmt) : Prop := (forall o, sem_stmt o s' = sem_stmt o s) /\ (forall o, safe_stmt o s <-> safe_stmt o s') /\ (noret s -> noret s') /\ (forall o o', unpacks o s' o' <-> unpacks o s o').
Lemma same_stmts : forall l l', Forall2 same_s l l' -> (forall o, sem_stmts o l' = sem_stmts o l) /\ (forall o, safe_stmts o l <-> safe_stmts o l') /\ (Forall noret l -> Forall noret l').
Proof.
  induction 1 as [|s s' l l' [A1 [A2 [A3 A4]]] _ [IH1 [IH2 IH3]]]; [split; [auto|split; [tauto|auto]]|].
  split; [intros o; cbn [sem_stmts]; rewrite A1; destruct (sem_stmt o s); auto|]. split.
  - intros o. cbn [CgProg.safe_stmts]. rewrite A2. assert (Q : forall o', sstep o s' o' <-> sstep o s o') by (intros o'; unfold CgProg.sstep; rewrite A1, A4; reflexivity).
    split; intros [X Y]; (split; [exact X|]); intros o' E; apply IH2, Y, Q, E.
  - intros X. inversion X; subst. constructor; auto.
Qed.
Lemma uo_stmts_same_of : forall l, Forall (fun s => forall M M' s', uo_stmt M s = Some (M', s') -> same_s s s') l -> forall M M' l', uo_stmts M l = Some (M', l') -> Forall2 same_s l l'.
Proof.
  induction 1 as [|s r Hs Hr IH]; intros M M' l' H; cbn [uo_stmts] in H; [injection H as _ <-; constructor|]. ob H. ob H. destruct p as [M1 s1], p0 as [M2 l2]. cbn [fst snd] in *. injection H as <- <-.
  constructor; eauto.
Qed.
Lemma uo_stmt_same : forall s M M' s', uo_stmt M s = Some (M', s') -> same_s s s'.
Proof.
  intros s. induction s using zstmt_ind'; intros M M' s' H1; cbn [uo_stmt] in H1.
  - ob H1. injection H1 as _ <-. apply uo_outs_same in E. split; [intros o; cbn [sem_stmt]; rewrite (sames_list _ _ _ E); auto|]. split; [intros o; cbn [CgProg.safe_stmt]; rewrite (sames_divs _ _ _ E); tauto|split; [auto|intros; reflexivity]].
  - ob H1. destruct p as [M1 e1]. injection H1 as _ <-. cbn [snd]. assert (S : same e e1).
    { unfold uo_def in E. ob E. apply uo_same in E0. destruct (zkind z); [injection E as _ <-; auto|injection E as _ <-; auto|]. ob E. ob E. injection E as _ <-. apply no_reduce_same in E1. eauto using same_trans. }
    destruct S as [S1 [S2 _]]. split; [intros o; cbn [sem_stmt]; rewrite S1; auto|]. split; [intros o; cbn [CgProg.safe_stmt]; rewrite S2; tauto|split; [auto|intros; reflexivity]].
  - ob H1. rewrite uo_stmts_go in H1. ob H1. rewrite uo_stmts_go in H1. ob H1. destruct p as [M1 a'], p0 as [M2 b']. cbn [fst snd] in *. injection H1 as _ <-.
    apply uo_same in E as [S1 [S2 _]]. destruct (same_stmts _ _ (uo_stmts_same_of _ H _ _ _ E0)) as [A1 [A2 A3]]. destruct (same_stmts _ _ (uo_stmts_same_of _ H0 _ _ _ E1)) as [B1 [B2 B3]].
    split; [intros o; rewrite !sem_if, S1, A1; destruct (sem (os_env o) c) as [[]|]; auto; destruct (sem_stmts o a); auto|]. split.
    + intros o. rewrite !safe_if, S2, <- A2. split; intros [X [Y Z]]; (split; [auto|split; [auto|]]); intros o' F; [apply B2, Z; rewrite <- A1; auto|apply B2, Z; rewrite A1; auto].
    + split; [|intros; reflexivity]. cbn [noret]. rewrite !noret_go. intros [X Y]. auto.
  - ob H1. injection H1 as _ <-. apply uo_same in E as [S1 [S2 _]]. split; [intros o; cbn [sem_stmt]; rewrite S1; auto|]. split; [intros o; cbn [CgProg.safe_stmt]; rewrite S2; tauto|split; [auto|intros; reflexivity]].
  - ob H1. rename m into M1. assert (S : exists es', Forall2 same es es' /\ s' = ZEmbed xs em es').
    { destruct em; (ob H1; injection H1 as _ <-; eexists; split; [first [eapply uo_outs_same; eassumption|eapply uos_same; eassumption]|reflexivity]). }
    destruct S as [es' [S ->]]. split; [intros o; cbn [sem_stmt]; rewrite (sames_list _ _ _ S); auto|]. split; [intros o; cbn [CgProg.safe_stmt]; rewrite (sames_divs _ _ _ S), (sames_list _ _ _ S); tauto|split; [auto|]].
    intros o o'. destruct em; try reflexivity. destruct S as [|e e' es es' S0 S]; [reflexivity|]. destruct S; [|reflexivity]. cbn [unpacks]. destruct S0 as [S1 _]. setoid_rewrite S1. reflexivity.
  - ob H1. injection H1 as _ <-. apply uo_outs_same in E. split; [intros o; cbn [sem_stmt]; rewrite (sames_list _ _ _ E); auto|]. split; [intros o; cbn [CgProg.safe_stmt]; rewrite (sames_divs _ _ _ E); tauto|split; [auto|intros; reflexivity]].
Qed.
Lemma uo_stmts_same : forall l M M' l', uo_stmts M l = Some (M', l') -> Forall2 same_s l l'.
Proof. intros l. apply uo_stmts_same_of. apply Forall_forall. intros s _. apply uo_stmt_same. Qed.
Theorem uint_optimize_safe : forall p p' inputs, uint_optimize p = Some p' -> safe_prog p inputs -> safe_prog p' inputs.
Proof.
  intros p p' inputs H S. unfold uint_optimize in H. ob H. destruct p0 as [M l]. injection H as <-. intros rho B. cbn [zargs zbody snd] in *.
  apply (same_stmts _ _ (uo_stmts_same _ _ _ _ E)). apply S. exact B.
Qed.
Lemma uo_stmts_app : forall a b M M' l', uo_stmts M (a ++ b) = Some (M', l') -> exists M1 a' b', uo_stmts M a = Some (M1, a') /\ uo_stmts M1 b = Some (M', b') /\ l' = a' ++ b'.
Proof.
  induction a as [|s r IH]; intros b M M' l' H; [exists M, [], l'; split; auto|]. cbn [app uo_stmts] in H. ob H. ob H. destruct p as [M1 s1], p0 as [M2 l2]. cbn [fst snd] in *. injection H as <- <-.
  destruct (IH _ _ _ _ E0) as [M3 [a' [b' [X [Y ->]]]]]. exists M3, (s1 :: a'), b'. cbn [uo_stmts]. rewrite E. cbn [obind fst snd]. rewrite X. split; auto.
Qed.
Theorem uint_optimize_ends : forall p p', uint_optimize p = Some p' -> ends_return p -> ends_return p'.
Proof.
  intros p p' H [ss [es [C [D R]]]]. unfold uint_optimize in H. ob H. destruct p0 as [M l]. injection H as <-. unfold ends_return. cbn [zbody zret snd]. rewrite C in E.
  destruct (uo_stmts_app _ _ _ _ _ E) as [M1 [a' [b' [X [Y ->]]]]]. cbn [uo_stmts uo_stmt] in Y. ob Y. ob E0. cbn [fst snd] in Y. injection E0 as <-. injection Y as _ <-. cbn [snd]. exists a', l. split; auto. split.
  - apply mapO_inv in E1. rewrite <- D. clear - E1. induction E1; cbn; auto.
  - apply (same_stmts _ _ (uo_stmts_same _ _ _ _ X)). exact R.
Qed.

(** ** From the source to the constraint system *)
Theorem analyse_ok : forall p, sty_prog p -> scoped_prog p -> exists p', analyse p = Some p' /\ zargs p' = zargs p /\ zret p' = zret p /\
  (forall inputs, sem_prog p' inputs = sem_prog (eliminate (extract_panics p)) inputs) /\ (max_ok_prog p' -> wtp p') /\ (ends_return p -> ends_return p') /\
  (no_cast_prog p -> forall inputs, safe_prog p' inputs).
Proof.
  intros p Ht Hs. destruct (uint_optimize_ok (eliminate (extract_panics p))) as [p' [A [B [C [D E]]]]].
  { apply eliminate_sty; [apply extract_scoped; auto|apply extract_sty; auto]. }
  exists p'. split; [exact A|]. split; [exact B|]. split; [exact C|]. split; [exact D|]. split; [exact E|]. split.
  - intros R. eapply uint_optimize_ends; [exact A|]. apply eliminate_ends, extract_ends, R.
  - intros N inputs. eapply uint_optimize_safe; [exact A|]. apply eliminate_extract_safe. exact N.
Qed.
Theorem analyse_sem : forall p p' inputs r, (3 <= required_bits)%nat -> sty_prog p -> scoped_prog p -> no_pow0_prog p -> analyse p = Some p' -> sem_prog p inputs = Some r -> sem_prog p' inputs = Some r.
Proof.
  intros p p' inputs r Hr Ht Hs Hn H Hp. destruct (analyse_ok p Ht Hs) as [p1 [A [_ [_ [D _]]]]]. rewrite H in A. injection A as <-. rewrite D.
  apply eliminate_sem; [apply extract_scoped; auto|]. rewrite extract_sem; auto.
Qed.
Theorem source_sound : forall p p' c (w : env), (3 <= required_bits)%nat -> sty_prog p -> scoped_prog p -> no_cast_prog p -> no_pow0_prog p ->
  analyse p = Some p' -> max_ok_prog p' -> compile p' = Some c -> unpacks_checked p' -> cache_safe p' -> satisfies w c ->
  let inputs := map (fun q => w (pid q)) (pargs c) in
  (exists r, sem_prog (eliminate (extract_panics p)) inputs = Some r) /\
  forall r, sem_prog p inputs = Some r -> r = (map (fun i => w (vpub i)) (seq 0 (zret p)), logs_of w (flat_stmts (pstmts c))).
Proof.
  intros p p' c w Hr Ht Hs Hn H0 Ha Hm Hc Hst Hca Hsat inputs. destruct (analyse_ok p Ht Hs) as [p1 [A [B [C [D [E [_ G]]]]]]]. rewrite Ha in A. injection A as <-.
  pose proof (compile_sound p' c w Hr (E Hm) Hst Hc Hca (G Hn _) Hsat) as S. fold inputs in S. split; [rewrite <- D, S; eauto|].
  intros r R. apply (analyse_sem p p' inputs r Hr Ht Hs H0 Ha) in R. rewrite S in R. injection R as <-. rewrite C. reflexivity.
Qed.
Theorem source_complete : forall ext p p' c (inputs : list F) rets logs, (3 <= required_bits)%nat -> sty_prog p -> scoped_prog p -> ends_return p -> no_pow0_prog p ->
  analyse p = Some p' -> max_ok_prog p' -> compile p' = Some c -> cache_clean p' ->
  sem_prog p inputs = Some (rets, logs) ->
  exists w, exec_prog (exec_solver ext) (pargs c) (flat_stmts (pstmts c)) inputs = Done w logs /\
    map (fun i => sget (vpub i) w) (seq 0 (zret p)) = map Some rets.
Proof.
  intros ext p p' c inputs rets logs Hr Ht Hs He H0 Ha Hm Hc Hca Hp. destruct (analyse_ok p Ht Hs) as [p1 [A [B [C [D [E [G _]]]]]]]. rewrite Ha in A. injection A as <-.
  rewrite <- C. apply (compile_complete ext p' c inputs rets logs Hr (E Hm) (G He) Hc Hca). eapply analyse_sem; eauto.
Qed.
End Source.
