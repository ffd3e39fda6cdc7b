(** Model of the panic extractor, /repo/zokrates_analysis/src/panic_extractor.rs: before each statement, one assertion per
    way its expressions can fail (division by zero, dynamic field comparison out of range). *)
From Coq Require Import ZArith NArith List Bool Lia.
From Verif Require Import PField IR Interp Bits Flat Zir Codegen CgBase CgExpr CgProg CgWf CgEnd UintOpt.
Import ListNotations.
Open Scope Z_scope.

(** zir/mod.rs RuntimeError *)
Definition eDivisionByZero : Z := 15.

Section Panic.
Context {PF : PrimeField}.

(** l.70-94 field Div, l.127-157 uint Div, l.159-236 dynamic field Lt, l.96-125 conditionals. The expressions are rebuilt
    unchanged; [pe e] is what is pushed to the panic buffer while folding e. *)
Definition is_val (e : zexp) : bool := match e with ZFVal _ => true | _ => false end.
Fixpoint pe (e : zexp) : list zstmt :=
  match e with
  | ZFVal _ | ZBVal _ | ZUVal _ _ | ZId _ _ => []
  | ZFBin op l r =>
      pe l ++ pe r ++ match op with FDiv => [ZAssert (ZBNot (ZCmp CFEq r (ZFVal f0))) eDivisionByZero] | _ => [] end
  | ZPow e _ | ZBNot e | ZUNot _ e | ZShl _ e _ | ZShr _ e _ => pe e
  | ZCmp op l r =>
      pe l ++ pe r ++
      match op with
      | CFLt => if is_val l || is_val r then [] else
          let s := (required_bits - 2)%nat in
          [ZAssert (ZCmp CFLt (ZFBin FAdd (ZFVal (of_Z (pow2 s))) (ZFBin FSub l r)) (ZFVal (of_Z (pow2 (s + 1))))) eIncompleteDynamicRange;
           ZAssert (ZBNot (ZCmp CFEq (ZFBin FSub r l) (ZFVal (of_Z (pow2 s))))) eIncompleteDynamicRange]
      | _ => []
      end
  | ZBBin _ l r => pe l ++ pe r
  | ZUBin a op l r =>
      pe l ++ pe r ++ match op with UDiv => [ZAssert (ZBNot (ZCmp CUEq r (ZUVal (mkAnn (uw a) f0 SRUnknown) 0))) eDivisionByZero] | _ => [] end
  | ZCond _ c x y =>
      pe c ++ match pe x, pe y with [], [] => [] | px, py => [ZIf c px py] end
  | ZSel _ es i => (fix go (l : list zexp) : list zstmt := match l with [] => [] | e :: r => pe e ++ go r end) es ++ pe i
  end.
Definition pes (es : list zexp) : list zstmt := flat_map pe es.
(** l.26-66 statements *)
Fixpoint px (s : zstmt) : list zstmt :=
  match s with
  | ZReturn es | ZLog _ es | ZEmbed _ _ es => pes es ++ [s]
  | ZDef _ e | ZAssert e _ => pe e ++ [s]
  | ZIf c a b => pe c ++ [ZIf c ((fix go (l : list zstmt) : list zstmt := match l with [] => [] | s :: r => px s ++ go r end) a)
                              ((fix go (l : list zstmt) : list zstmt := match l with [] => [] | s :: r => px s ++ go r end) b)]
  end.
Definition pxs (l : list zstmt) : list zstmt := flat_map px l.
(** l.19-23 *)
Definition extract_panics (p : zprog) : zprog := mkZProg (zargs p) (pxs (zbody p)) (zret p).

(** ** Proofs *)
Lemma px_go : forall l, (fix go (l : list zstmt) : list zstmt := match l with [] => [] | s :: r => px s ++ go r end) l = pxs l.
Proof. reflexivity. Qed.
Lemma pe_go : forall l, (fix go (l : list zexp) : list zstmt := match l with [] => [] | e :: r => pe e ++ go r end) l = pes l.
Proof. reflexivity. Qed.
Notation safe_stmt := (CgProg.safe_stmt True).
Notation safe_stmts := (CgProg.safe_stmts True).
Notation sstep := (CgProg.sstep True).
Fixpoint safe_steps (o : outs_s) (l : list zstmt) (o' : outs_s) : Prop := match l with [] => o' = o | s :: r => exists o1, sstep o s o1 /\ safe_steps o1 r o' end.
Lemma safe_app : forall a b o, safe_stmts o (a ++ b) <-> safe_stmts o a /\ forall o', safe_steps o a o' -> safe_stmts o' b.
Proof.
  induction a as [|s r IH]; intros b o.
  - split; [intros H; split; [exact I|intros o' ->; exact H]|intros [_ H]; apply H; reflexivity].
  - split.
    + intros [H1 H2]. split; [split; [exact H1|intros o' E; apply (IH b o'), H2, E]|]. intros o' [o1 [Es E]]. apply (proj1 (IH b o1) (H2 o1 Es)). exact E.
    + intros [[H1 H2] H3]. split; [exact H1|]. intros o' E. apply IH. split; [apply H2, E|]. intros o2 E2. apply H3. exists o'. split; assumption.
Qed.
(** statements that only check *)
Fixpoint checks (s : zstmt) : Prop :=
  match s with
  | ZAssert _ _ => True
  | ZIf _ a b => (fix go (l : list zstmt) : Prop := match l with [] => True | s :: r => checks s /\ go r end) a /\
                 (fix go (l : list zstmt) : Prop := match l with [] => True | s :: r => checks s /\ go r end) b
  | _ => False
  end.
Lemma checks_go : forall l, (fix go (l : list zstmt) : Prop := match l with [] => True | s :: r => checks s /\ go r end) l <-> Forall checks l.
Proof. induction l as [|s r IH]; [split; auto|]. split; [intros [A B]; constructor; tauto|intros H; inversion H; tauto]. Qed.
Lemma checks_pure : forall s, checks s -> forall o o', sem_stmt o s = Some o' -> o' = o.
Proof.
  apply (zstmt_ind' (fun s => checks s -> forall o o', sem_stmt o s = Some o' -> o' = o)); try (intros; cbn [checks] in *; tauto).
  - intros c a b Ha Hb H o o' E. cbn [checks] in H. rewrite !checks_go in H. destruct H as [H1 H2]. rewrite sem_if in E.
    assert (G : forall l, Forall (fun s => checks s -> forall o o', sem_stmt o s = Some o' -> o' = o) l -> Forall checks l -> forall o o', sem_stmts o l = Some o' -> o' = o).
    { induction 1 as [|s r Hs Hr IH]; intros Hc o0 o1 E0; cbn [sem_stmts] in E0; [injection E0 as <-; auto|]. inversion Hc as [|? ? C1 C2]. 
      destruct (sem_stmt o0 s) as [o2|] eqn:E2; [|discriminate]. rewrite (IH C2 _ _ E0). eapply Hs; eauto. }
    destruct (sem (os_env o) c) as [[]|]; try discriminate. destruct (sem_stmts o a) as [o1|] eqn:E1; [|discriminate].
    rewrite (G b Hb H2 _ _ E). exact (G a Ha H1 _ _ E1).
  - intros e err _ o o' E. cbn in E. destruct (sem (os_env o) e) as [[|[]|]|]; congruence.
Qed.
Lemma checks_pures : forall l, Forall checks l -> forall o o', sem_stmts o l = Some o' -> o' = o.
Proof.
  induction 1 as [|s r Hs Hr IH]; intros o o' E; cbn [sem_stmts] in E; [congruence|]. destruct (sem_stmt o s) as [o1|] eqn:E1; [|discriminate].
  rewrite (IH _ _ E). eapply checks_pure; eauto.
Qed.
Lemma pe_checks : forall e, Forall checks (pe e).
Proof.
  induction e using zexp_ind'; cbn [pe]; auto; rewrite ?Forall_app.
  - split; auto. split; auto. destruct op; auto. repeat constructor.
  - split; auto. split; auto. destruct op; auto. destruct (is_val e1 || is_val e2); repeat constructor.
  - auto.
  - split; auto. split; auto. destruct op; auto. repeat constructor.
  - split; auto. destruct (pe e2) as [|a l] eqn:E2; [destruct (pe e3) as [|b m] eqn:E3; [auto|]|].
    + constructor; auto. cbn [checks]. split; auto. inversion IHe3. rewrite checks_go. auto.
    + constructor; auto. cbn [checks]. rewrite (checks_go (pe e3)). split; auto. inversion IHe2. rewrite checks_go. auto.
  - rewrite pe_go. split; auto. unfold pes. rewrite Forall_flat_map. auto.
Qed.
Lemma checks_step : forall s, checks s -> forall o o', sstep o s o' -> sem_stmt o s = Some o'.
Proof. intros s Hc o o' [E|[_ U]]; [exact E|]. destruct s; try contradiction. Qed.
Lemma checks_steps : forall l, Forall checks l -> forall o o', safe_steps o l o' -> sem_stmts o l = Some o'.
Proof. induction 1 as [|s r Hs Hr IH]; intros o o' E; cbn [safe_steps sem_stmts] in *; [subst; reflexivity|]. destruct E as [o1 [E1 E2]]. rewrite (checks_step s Hs o o1 E1). exact (IH o1 o' E2). Qed.
Lemma pes_checks : forall es, Forall checks (pes es).
Proof. intros es. unfold pes. rewrite Forall_flat_map. apply Forall_forall. intros. apply pe_checks. Qed.

(** ** The pushed assertions guard the expression *)
Definition guarded (o : outs_s) (l : list zstmt) (P : Prop) : Prop := safe_stmts o l /\ (sem_stmts o l <> None -> P).
Lemma guard_nil : forall o (P : Prop), P -> guarded o [] P.
Proof. intros o P H. split; [exact I|auto]. Qed.
Lemma guard_app : forall o a b (P Q : Prop), Forall checks a -> guarded o a P -> (P -> guarded o b Q) -> guarded o (a ++ b) (P /\ Q).
Proof.
  intros o a b P Q Hc [H1 H2] H3. assert (Hb : forall o', sem_stmts o a = Some o' -> o' = o /\ P).
  { intros o' E. split; [eapply checks_pures; eauto|]. apply H2. congruence. }
  split.
  - apply safe_app. split; auto. intros o' E. apply (checks_steps a Hc) in E. destruct (Hb _ E) as [-> HP]. apply H3; auto.
  - rewrite sem_stmts_app. destruct (sem_stmts o a) as [o'|] eqn:E; [|congruence]. destruct (Hb _ eq_refl) as [-> HP]. intros H. split; auto. apply H3; auto.
Qed.
Lemma guard_impl : forall o a (P Q : Prop), guarded o a P -> (P -> Q) -> guarded o a Q.
Proof. intros o a P Q [H1 H2] H. split; auto. Qed.
Lemma divs_go : forall rho l, (fix go (l : list zexp) : Prop := match l with [] => True | e :: r => divs rho e /\ go r end) l <-> Forall (divs rho) l.
Proof. intros rho. induction l as [|s r IH]; [split; auto|]. split; [intros [A B]; constructor; tauto|intros H; inversion H; tauto]. Qed.
Lemma safe_nz : forall o e err, divs (os_env o) e -> safe_stmts o [ZAssert e err].
Proof. intros o e err H. split; [exact H|]. intros o' _. exact I. Qed.
Lemma pe_guard : forall e o, guarded o (pe e) (divs (os_env o) e).
Proof.
  induction e using zexp_ind'; intros o; cbn [pe divs]; try (apply guard_nil; exact I); auto.
  - apply (guard_app o _ _ _ (divs (os_env o) e2 /\ _)); [apply pe_checks|auto|]. intros D1. apply guard_app; [apply pe_checks|auto|]. intros D2.
    destruct op; try (apply guard_nil; exact I). split.
    + apply safe_nz. cbn [divs]. auto.
    + cbn [sem_stmts sem_stmt sem]. intros H E. apply H. rewrite E. cbn. destruct (Z.eqb_spec (fval (f0 : F)) (fval (f0 : F))); [reflexivity|congruence].
  - eapply guard_impl; [apply (guard_app o _ _ (divs (os_env o) e1) (divs (os_env o) e2 /\ True)); [apply pe_checks|auto|]|tauto]. intros D1. apply guard_app; [apply pe_checks|auto|]. intros D2.
    destruct op; try (apply guard_nil; exact I). destruct (is_val e1 || is_val e2); [apply guard_nil; exact I|]. split; [|auto].
    split; [cbn [CgProg.safe_stmt divs]; tauto|]. intros o' E. apply checks_step in E; [|exact I]. apply checks_pure in E; [|exact I]. subst o'. apply safe_nz. cbn [divs]. tauto.
  - apply guard_app; [apply pe_checks|auto|auto].
  - eapply guard_impl; [apply (guard_app o _ _ (divs (os_env o) e1) (divs (os_env o) e2 /\ True)); [apply pe_checks|auto|]|tauto]. intros D1. apply guard_app; [apply pe_checks|auto|]. intros D2.
    destruct op; try (apply guard_nil; exact I). split; [|auto]. apply safe_nz. cbn [divs]. auto.
  - apply guard_app; [apply pe_checks|auto|]. intros D1. pose proof (IHe2 o) as [G1 G2]. pose proof (IHe3 o) as [G3 G4].
    assert (G : guarded o [ZIf e1 (pe e2) (pe e3)] (divs (os_env o) e2 /\ divs (os_env o) e3)).
    { assert (P2 : forall o', sem_stmts o (pe e2) = Some o' -> o' = o) by (apply checks_pures; apply pe_checks). split.
      - split; [|intros; exact I]. apply safe_if. split; auto. split; auto. intros o' E. rewrite (P2 _ E). auto.
      - cbn [sem_stmts]. rewrite sem_if. destruct (sem (os_env o) e1) as [[|b|]|]; try congruence. destruct (sem_stmts o (pe e2)) as [o1|] eqn:E; [|congruence].
        rewrite (P2 _ eq_refl). intros H. split; [apply G2; congruence|]. apply G4. destruct (sem_stmts o (pe e3)); congruence. }
    destruct (pe e2) as [|x l]; [destruct (pe e3) as [|x l]|]; try exact G. apply guard_nil. split; [apply G2|apply G4]; discriminate.
  - rewrite pe_go. assert (Ha : guarded o (pes es) (Forall (divs (os_env o)) es)).
    { induction H as [|x l Hx Hl IH]; [apply guard_nil; auto|]. apply (guard_impl o _ (divs (os_env o) x /\ Forall (divs (os_env o)) l)); [apply (guard_app o (pe x) (pes l)); [apply pe_checks|apply Hx|auto]|]. intros [A B]. auto. }
    apply (guard_impl o _ (Forall (divs (os_env o)) es /\ divs (os_env o) e)); [apply guard_app; [apply pes_checks|exact Ha|intros _; apply (IHe o)]|]. intros [A B]. split; auto. apply divs_go; auto.
Qed.
Lemma pes_guard : forall es o, guarded o (pes es) (Forall (divs (os_env o)) es).
Proof.
  induction es as [|e es IH]; intros o; [apply guard_nil; auto|]. apply (guard_impl o _ (divs (os_env o) e /\ Forall (divs (os_env o)) es)); [apply (guard_app o (pe e) (pes es)); [apply pe_checks|apply pe_guard|auto]|]. intros [A B]. auto.
Qed.
(** ** They do not fail when the expression does not *)
(** x ** 0 is replaced by 1 before this pass (zir_propagation.rs:349), so never an operand of a comparison *)
Definition is_pow0 (e : zexp) : bool := match e with ZPow _ 0%N => true | _ => false end.
Fixpoint no_pow0 (e : zexp) : Prop :=
  match e with
  | ZFVal _ | ZBVal _ | ZUVal _ _ | ZId _ _ => True
  | ZFBin _ l r | ZBBin _ l r | ZUBin _ _ l r => no_pow0 l /\ no_pow0 r
  | ZCmp _ l r => no_pow0 l /\ no_pow0 r /\ is_pow0 l = false /\ is_pow0 r = false
  | ZPow e _ | ZBNot e | ZUNot _ e | ZShl _ e _ | ZShr _ e _ => no_pow0 e
  | ZCond _ c x y => no_pow0 c /\ no_pow0 x /\ no_pow0 y
  | ZSel _ es i => no_pow0 i /\ (fix go (l : list zexp) : Prop := match l with [] => True | e :: r => no_pow0 e /\ go r end) es
  end.
Fixpoint no_pow0_stmt (s : zstmt) : Prop :=
  match s with
  | ZReturn es | ZLog _ es | ZEmbed _ _ es => Forall no_pow0 es
  | ZDef _ e | ZAssert e _ => no_pow0 e
  | ZIf c a b => no_pow0 c /\ (fix go (l : list zstmt) : Prop := match l with [] => True | s :: r => no_pow0_stmt s /\ go r end) a /\
                 (fix go (l : list zstmt) : Prop := match l with [] => True | s :: r => no_pow0_stmt s /\ go r end) b
  end.
Lemma no_pow0_go : forall l, (fix go (l : list zexp) : Prop := match l with [] => True | e :: r => no_pow0 e /\ go r end) l <-> Forall no_pow0 l.
Proof. induction l as [|s r IH]; [split; auto|]. split; [intros [A B]; constructor; tauto|intros H; inversion H; tauto]. Qed.
Lemma no_pow0_stmt_go : forall l, (fix go (l : list zstmt) : Prop := match l with [] => True | s :: r => no_pow0_stmt s /\ go r end) l <-> Forall no_pow0_stmt l.
Proof. induction l as [|s r IH]; [split; auto|]. split; [intros [A B]; constructor; tauto|intros H; inversion H; tauto]. Qed.
Lemma is_lit_val : forall e, is_pow0 e = false -> is_lit e = is_val e.
Proof. intros e H. destruct e; auto. Qed.
Lemma app_ok : forall o a b, sem_stmts o a = Some o -> sem_stmts o b = Some o -> sem_stmts o (a ++ b) = Some o.
Proof. intros o a b H1 H2. rewrite sem_stmts_app, H1. auto. Qed.
Lemma dyn_ok : forall (a b : F), (3 <= required_bits)%nat -> fval a < safe_max -> fval b < safe_max ->
  let s := (required_bits - 2)%nat in
  fval (fadd (of_Z (pow2 s)) (fsub a b)) < fval (of_Z (pow2 (s + 1)) : F) /\ fval (fsub b a) <> fval (of_Z (pow2 s) : F).
Proof.
  intros a b Hr Ha Hb s. pose proof (fval_range a). pose proof (fval_range b). destruct required_bits_bounds as [Hp _].
  assert (Es : safe_max = pow2 s) by (unfold safe_max, pow2, s; f_equal; lia). rewrite Es in *.
  assert (E1 : pow2 (s + 1) = 2 * pow2 s) by (replace (s + 1)%nat with (S s) by lia; apply pow2_S).
  assert (E2 : pow2 (required_bits - 1) = pow2 (s + 1)) by (f_equal; unfold s; lia). rewrite E2 in Hp.
  assert (Hlt : pow2 (s + 1) < pp). { apply Z.le_neq. split; auto. intros X. pose proof pp_prime as Hprime. rewrite <- X, E1 in Hprime.
    pose proof (pow2_pos s). assert (pow2 s <> 1). { assert (1 <= s)%nat by (unfold s; lia). pose proof (pow2_le 1 s ltac:(lia)). change (pow2 1) with 2 in *. lia. }
    destruct (Znumtheory.prime_divisors _ Hprime 2) as [?|[?|[?|?]]]; try lia. exists (pow2 s). ring. }
  pose proof (pow2_pos s). rewrite !fval_of_Z_small by lia. split.
  - replace (fadd (of_Z (pow2 s)) (fsub a b)) with (of_Z (pow2 s + (fval a - fval b))).
    + rewrite fval_of_Z_small by lia. lia.
    + rewrite of_Z_add, of_Z_sub, !of_Z_fval. auto.
  - intros X. assert (Y : of_Z (fval b - fval a) = of_Z (pow2 s)) by (rewrite of_Z_sub, !of_Z_fval; apply F_ext; rewrite X; rewrite fval_of_Z_small by lia; auto).
    destruct (Z.le_gt_cases (fval a) (fval b)).
    + apply (f_equal fval) in Y. rewrite !fval_of_Z_small in Y by lia. lia.
    + assert (Z0 : of_Z (fval b - fval a + pp) = of_Z (pow2 s)) by (rewrite <- Y; apply F_ext; rewrite !fval_of_Z; replace (fval b - fval a + pp) with (fval b - fval a + 1 * pp) by ring; apply Z.mod_add; lia).
      apply (f_equal fval) in Z0. rewrite !fval_of_Z_small in Z0 by lia. lia.
Qed.
Lemma pe_ok : (3 <= required_bits)%nat -> forall e o, no_pow0 e -> sem (os_env o) e <> None -> sem_stmts o (pe e) = Some o.
Proof.
  intros Hr. induction e using zexp_ind'; intros o N HS; cbn [pe no_pow0 sem] in *; try reflexivity.
  - destruct N as [N1 N2]. destruct (sem (os_env o) e1) as [[x| |]|] eqn:E1; try congruence. destruct (sem (os_env o) e2) as [[y| |]|] eqn:E2; try congruence.
    apply app_ok; [apply IHe1; congruence|]. apply app_ok; [apply IHe2; congruence|]. destruct op; try reflexivity. cbn [sem_fop] in HS.
    cbn [sem_stmts sem_stmt sem]. rewrite E2. destruct (Feqb_spec y f0); [congruence|]. destruct (Z.eqb_spec (fval y) (fval (f0 : F))); [exfalso; apply n; apply F_ext; auto|reflexivity].
  - apply IHe; auto. destruct (sem (os_env o) e); congruence.
  - destruct N as [N1 [N2 [N3 N4]]]. apply app_ok; [apply IHe1; auto; destruct (sem (os_env o) e1); congruence|].
    apply app_ok; [apply IHe2; auto; destruct (sem (os_env o) e1) as [[]|]; try congruence; destruct (sem (os_env o) e2); congruence|].
    destruct op; try reflexivity. destruct (is_val e1 || is_val e2) eqn:Ev; [reflexivity|].
    destruct (sem (os_env o) e1) as [[x|x|x]|] eqn:E1; try congruence; destruct (sem (os_env o) e2) as [[y|y|y]|] eqn:E2; try congruence.
    unfold fcmp_defined in HS. rewrite !is_lit_val, Ev in HS by auto. cbn [orb] in HS. destruct (Z.ltb_spec (fval x) safe_max); [|cbn in HS; congruence]. destruct (Z.ltb_spec (fval y) safe_max); [|cbn in HS; congruence].
    destruct (dyn_ok x y Hr) as [D1 D2]; auto. cbn [sem_stmts sem_stmt sem]. rewrite E1, E2. cbn [sem_fop]. unfold fcmp_defined. cbn [is_lit orb].
    rewrite (proj2 (Z.ltb_lt _ _) D1), E1, E2. cbn [sem_fop]. destruct (Z.eqb_spec (fval (fsub y x)) (fval (of_Z (pow2 (required_bits - 2)) : F))); [contradiction|reflexivity].
  - destruct N as [N1 N2]. apply app_ok; [apply IHe1; auto; destruct (sem (os_env o) e1); congruence|].
    apply IHe2; auto; destruct (sem (os_env o) e1) as [[]|]; try congruence; destruct (sem (os_env o) e2); congruence.
  - apply IHe; auto. destruct (sem (os_env o) e); congruence.
  - destruct N as [N1 N2]. destruct (sem (os_env o) e1) as [[| |x]|] eqn:E1; try congruence. destruct (sem (os_env o) e2) as [[| |y]|] eqn:E2; try congruence.
    apply app_ok; [apply IHe1; congruence|]. apply app_ok; [apply IHe2; congruence|]. destruct op; try reflexivity. cbn [sem_uop] in HS.
    cbn [sem_stmts sem_stmt sem]. rewrite E2. destruct (y =? 0); [congruence|reflexivity].
  - apply IHe; auto. destruct (sem (os_env o) e); congruence.
  - apply IHe; auto. destruct (sem (os_env o) e); congruence.
  - apply IHe; auto. destruct (sem (os_env o) e); congruence.
  - destruct N as [N1 [N2 N3]]. destruct (sem (os_env o) e1) as [[|b|]|] eqn:E1; try congruence. destruct (sem (os_env o) e2) as [v2|] eqn:E2; [|congruence]. destruct (sem (os_env o) e3) as [v3|] eqn:E3; [|congruence].
    apply app_ok; [apply IHe1; congruence|]. pose proof (IHe2 o N2 ltac:(congruence)) as P2. pose proof (IHe3 o N3 ltac:(congruence)) as P3.
    assert (G : sem_stmts o [ZIf e1 (pe e2) (pe e3)] = Some o) by (cbn [sem_stmts]; rewrite sem_if, E1, P2, P3; reflexivity).
    destruct (pe e2) as [|x l]; [destruct (pe e3) as [|x l]|]; try exact G. reflexivity.
  - destruct N as [N1 N2]. apply no_pow0_go in N2. rewrite pe_go. destruct (sem (os_env o) e) as [v|] eqn:Ei; [|congruence].
    assert (He' : opt_list (map (sem (os_env o)) es) <> None) by (destruct v; try congruence; destruct (opt_list (map (sem (os_env o)) es)); congruence).
    apply opt_list_each in He'. apply app_ok; [|apply IHe; congruence]. clear HS. induction H as [|x l Hx Hl IH]; [reflexivity|].
    inversion N2; inversion He'; subst. cbn [pes flat_map]. apply app_ok; [apply Hx; auto|apply IH; auto].
Qed.
Lemma pes_ok : (3 <= required_bits)%nat -> forall es o, Forall no_pow0 es -> sem_list (os_env o) es <> None -> sem_stmts o (pes es) = Some o.
Proof.
  intros Hr es o N H. apply opt_list_each in H. induction es as [|e es IH]; [reflexivity|]. inversion N; inversion H; subst. cbn [pes flat_map]. apply app_ok; [apply pe_ok; auto|apply IH; auto].
Qed.
(** ** Statements *)
Lemma guard_sem : forall o g l, Forall checks g -> (sem_stmts o l <> None -> sem_stmts o g = Some o) -> sem_stmts o (g ++ l) = sem_stmts o l.
Proof.
  intros o g l Hc H. rewrite sem_stmts_app. destruct (sem_stmts o g) as [o'|] eqn:E; [rewrite (checks_pures _ Hc _ _ E); auto|].
  destruct (sem_stmts o l) eqn:E2; auto. exfalso. assert (X : None = Some o) by (apply H; discriminate). discriminate X.
Qed.
Lemma px_sem : (3 <= required_bits)%nat -> forall s o, no_pow0_stmt s -> sem_stmts o (px s) = sem_stmt o s.
Proof.
  intros Hr s. induction s using zstmt_ind'; intros o N; cbn [px no_pow0_stmt] in *.
  - rewrite guard_sem; [cbn [sem_stmts]; destruct (sem_stmt o (ZReturn es)); auto|apply pes_checks|]. cbn [sem_stmts sem_stmt]. intros H. apply pes_ok; auto. destruct (sem_list (os_env o) es); congruence.
  - rewrite guard_sem; [cbn [sem_stmts]; destruct (sem_stmt o (ZDef x e)); auto|apply pe_checks|]. cbn [sem_stmts sem_stmt]. intros H. apply pe_ok; auto. destruct (sem (os_env o) e); congruence.
  - rewrite no_pow0_stmt_go, no_pow0_stmt_go in N. destruct N as [N1 [N2 N3]]. rewrite (px_go a), (px_go b).
    assert (G : forall l, Forall (fun s => forall o, no_pow0_stmt s -> sem_stmts o (px s) = sem_stmt o s) l -> Forall no_pow0_stmt l -> forall o, sem_stmts o (pxs l) = sem_stmts o l).
    { induction 1 as [|s r Hs Hr' IH]; intros Nl o0; [reflexivity|]. inversion Nl; subst. cbn [pxs flat_map sem_stmts]. rewrite sem_stmts_app, Hs by auto. destruct (sem_stmt o0 s); auto. }
    assert (E : sem_stmts o [ZIf c (pxs a) (pxs b)] = sem_stmt o (ZIf c a b)).
    { cbn [sem_stmts]. rewrite !sem_if. destruct (sem (os_env o) c) as [[]|]; auto. rewrite (G a) by auto. destruct (sem_stmts o a); auto. rewrite (G b) by auto. destruct (sem_stmts o0 b); auto. }
    rewrite guard_sem; [exact E|apply pe_checks|]. rewrite E, sem_if. intros X. apply pe_ok; auto. destruct (sem (os_env o) c); congruence.
  - rewrite guard_sem; [cbn [sem_stmts]; destruct (sem_stmt o (ZAssert e err)); auto|apply pe_checks|]. cbn [sem_stmts sem_stmt]. intros H. apply pe_ok; auto. destruct (sem (os_env o) e); congruence.
  - rewrite guard_sem; [cbn [sem_stmts]; destruct (sem_stmt o (ZEmbed xs em es)); auto|apply pes_checks|]. cbn [sem_stmts sem_stmt]. intros H. apply pes_ok; auto. destruct (sem_list (os_env o) es); congruence.
  - rewrite guard_sem; [cbn [sem_stmts]; destruct (sem_stmt o (ZLog f es)); auto|apply pes_checks|]. cbn [sem_stmts sem_stmt]. intros H. apply pes_ok; auto. destruct (sem_list (os_env o) es); congruence.
Qed.
Lemma pxs_sem : (3 <= required_bits)%nat -> forall l o, Forall no_pow0_stmt l -> sem_stmts o (pxs l) = sem_stmts o l.
Proof.
  intros Hr. induction l as [|s r IH]; intros o N; [reflexivity|]. inversion N; subst. cbn [pxs flat_map sem_stmts]. rewrite sem_stmts_app, px_sem by auto. destruct (sem_stmt o s); auto.
Qed.
Definition no_pow0_prog (p : zprog) : Prop := Forall no_pow0_stmt (zbody p).
Theorem extract_sem : forall p inputs, (3 <= required_bits)%nat -> no_pow0_prog p -> sem_prog (extract_panics p) inputs = sem_prog p inputs.
Proof.
  intros p inputs Hr N. unfold sem_prog, extract_panics. cbn [zargs zbody]. destruct (bind_params _ _ _); auto. rewrite pxs_sem by auto. reflexivity.
Qed.
(** unconditionally, extraction only removes behaviours *)
Lemma px_sub : forall s o o', sem_stmts o (px s) = Some o' -> sem_stmt o s = Some o'.
Proof.
  assert (A : forall o g l o', Forall checks g -> sem_stmts o (g ++ l) = Some o' -> sem_stmts o l = Some o').
  { intros o g l o' Hc E. rewrite sem_stmts_app in E. destruct (sem_stmts o g) as [o1|] eqn:E1; [|discriminate]. rewrite <- (checks_pures _ Hc _ _ E1). auto. }
  assert (B : forall o s o', sem_stmts o [s] = Some o' -> sem_stmt o s = Some o') by (intros o s o'; cbn [sem_stmts]; destruct (sem_stmt o s); congruence).
  intros s. induction s using zstmt_ind'; intros o o' E; cbn [px] in E; try (apply A in E; [|apply pes_checks]; apply B; exact E); try (apply A in E; [|apply pe_checks]; apply B; exact E).
  rewrite (px_go a), (px_go b) in E. apply A in E; [|apply pe_checks]. apply B in E. rewrite sem_if in *. destruct (sem (os_env o) c) as [[]|]; try discriminate.
  assert (G : forall l, Forall (fun s => forall o o', sem_stmts o (px s) = Some o' -> sem_stmt o s = Some o') l -> forall o o', sem_stmts o (pxs l) = Some o' -> sem_stmts o l = Some o').
  { induction 1 as [|s r Hs Hr' IH]; intros o0 o1 E0; [exact E0|]. cbn [pxs flat_map sem_stmts] in *. rewrite sem_stmts_app in E0. destruct (sem_stmts o0 (px s)) as [o2|] eqn:E2; [|discriminate].
    rewrite (Hs _ _ E2). auto. }
  destruct (sem_stmts o (pxs a)) as [o1|] eqn:E1; [|discriminate]. rewrite (G a H _ _ E1). apply (G b H0 _ _ E).
Qed.
Lemma pxs_sub : forall l o o', sem_stmts o (pxs l) = Some o' -> sem_stmts o l = Some o'.
Proof.
  induction l as [|s r IH]; intros o o' E; [exact E|]. cbn [pxs flat_map sem_stmts] in *. rewrite sem_stmts_app in E. destruct (sem_stmts o (px s)) as [o1|] eqn:E1; [|discriminate].
  rewrite (px_sub _ _ _ E1). auto.
Qed.

(** ** After extraction nothing can divide by zero unguarded *)
(** casts from field to bool are only applied to 0 and 1 (property C20) and are excluded *)
Fixpoint no_cast (s : zstmt) : Prop :=
  match s with
  | ZEmbed _ EFieldToBool _ => False
  | ZIf _ a b => (fix go (l : list zstmt) : Prop := match l with [] => True | s :: r => no_cast s /\ go r end) a /\
                 (fix go (l : list zstmt) : Prop := match l with [] => True | s :: r => no_cast s /\ go r end) b
  | _ => True
  end.
Lemma no_cast_go : forall l, (fix go (l : list zstmt) : Prop := match l with [] => True | s :: r => no_cast s /\ go r end) l <-> Forall no_cast l.
Proof. induction l as [|s r IH]; [split; auto|]. split; [intros [A B]; constructor; tauto|intros H; inversion H; tauto]. Qed.
Definition no_cast_prog (p : zprog) : Prop := Forall no_cast (zbody p).
Lemma guard_safe : forall o g s (P : Prop), Forall checks g -> guarded o g P -> (P -> safe_stmts o s) -> safe_stmts o (g ++ s).
Proof.
  intros o g s P Hc [G1 G2] H. apply safe_app. split; auto. intros o' E. apply (checks_steps g Hc) in E. rewrite (checks_pures _ Hc _ _ E). apply H. apply G2. congruence.
Qed.
Lemma safe1 : forall o s, safe_stmt o s -> safe_stmts o [s].
Proof. intros o s H. split; [exact H|]. intros o' _. exact I. Qed.
Lemma px_safe : forall s, no_cast s -> forall o, safe_stmts o (px s).
Proof.
  intros s. induction s using zstmt_ind'; intros N o; cbn [px].
  - eapply guard_safe; [apply pes_checks|apply pes_guard|]. intros D. apply safe1. exact D.
  - eapply guard_safe; [apply pe_checks|apply pe_guard|]. intros D. apply safe1. exact D.
  - cbn [no_cast] in N. rewrite !no_cast_go in N. destruct N as [N1 N2]. rewrite (px_go a), (px_go b).
    eapply guard_safe; [apply pe_checks|apply pe_guard|]. intros D. apply safe1. apply safe_if.
    assert (G : forall l, Forall (fun s => no_cast s -> forall o, safe_stmts o (px s)) l -> Forall no_cast l -> forall o, safe_stmts o (pxs l)).
    { induction 1 as [|s r Hs Hr IH]; intros Nl o0; [exact I|]. inversion Nl; subst. apply safe_app. split; [apply Hs; auto|]. intros o' _. apply IH. auto. }
    split; [exact D|]. split; [apply G; auto|]. intros o' _. apply G; auto.
  - eapply guard_safe; [apply pe_checks|apply pe_guard|]. intros D. apply safe1. exact D.
  - eapply guard_safe; [apply pes_checks|apply pes_guard|]. intros D. apply safe1. cbn [CgProg.safe_stmt]. split; [exact D|]. destruct em; auto. contradiction.
  - eapply guard_safe; [apply pes_checks|apply pes_guard|]. intros D. apply safe1. exact D.
Qed.
Lemma pxs_safe : forall l, Forall no_cast l -> forall o, safe_stmts o (pxs l).
Proof. induction 1 as [|s r Hs Hr IH]; intros o; [exact I|]. apply safe_app. split; [apply px_safe; auto|auto]. Qed.
Theorem extract_safe : forall p inputs, no_cast_prog p -> safe_prog (extract_panics p) inputs.
Proof. intros p inputs N rho _. apply pxs_safe. exact N. Qed.

(** ** Typing and shape *)
Lemma sty_app : forall a b S S1 S2, sty_stmts S a S1 -> sty_stmts S1 b S2 -> sty_stmts S (a ++ b) S2.
Proof. intros a b S S1 S2 H. revert S2. induction H; intros S3 Hb; [exact Hb|]. econstructor; eauto. Qed.
Lemma sty_app_inv : forall a b S S2, sty_stmts S (a ++ b) S2 -> exists S1, sty_stmts S a S1 /\ sty_stmts S1 b S2.
Proof.
  induction a as [|s r IH]; intros b S S2 H; [exists S; split; [constructor|auto]|]. cbn [app] in H. inversion H; subst.
  match goal with X : sty_stmts _ (r ++ b) _ |- _ => destruct (IH _ _ _ X) as [S3 [A B]] end. exists S3. split; auto. econstructor; eauto.
Qed.
Lemma sty_one : forall S s S', sty_stmt S s S' -> sty_stmts S [s] S'.
Proof. intros. econstructor; eauto. constructor. Qed.
Lemma pe_sty : forall e S t, has_ty S e t -> sty_stmts S (pe e) S.
Proof.
  induction e using zexp_ind'; intros S t Ht; cbn [pe has_ty] in *; try (constructor; fail).
  - destruct Ht as [_ [H1 H2]]. eapply sty_app; [eauto|]. eapply sty_app; [eauto|]. destruct op; try (apply SNil). apply sty_one. constructor. cbn. tauto.
  - destruct Ht as [_ H1]. eauto.
  - destruct Ht as [_ Ht].
    assert (G : forall l, (exists t1, has_ty S e1 t1) -> (exists t2, has_ty S e2 t2) -> sty_stmts S l S -> sty_stmts S (pe e1 ++ pe e2 ++ l) S)
      by (intros l [t1 A] [t2 B] C; eapply sty_app; [eauto|]; eapply sty_app; eauto).
    destruct op; (apply G; [destruct Ht as [A B]; try (destruct B as [_ [B _]]); eauto|destruct Ht as [A B]; try (destruct B as [_ [_ B]]); eauto|try (apply SNil)]).
    destruct (is_val e1 || is_val e2); [constructor|]. econstructor; [constructor; cbn [has_ty]; tauto|]. econstructor; [constructor; cbn [has_ty]; tauto|constructor].
  - destruct Ht as [_ [H1 H2]]. eapply sty_app; eauto.
  - destruct Ht as [_ H1]. eauto.
  - destruct Ht as [-> [Hw [H1 H2]]]. eapply sty_app; [eauto|]. eapply sty_app; [eauto|]. destruct op; try (apply SNil). apply sty_one. constructor. cbn [has_ty uw]. split; auto. split; auto. exists (uw a).
    pose proof (pow2_pos (uw a)). auto 10 with zarith.
  - destruct Ht as [_ [_ H1]]. eauto.
  - destruct Ht as [_ [_ [_ H1]]]. eauto.
  - destruct Ht as [_ [_ [_ H1]]]. eauto.
  - destruct Ht as [_ [_ [H1 [H2 H3]]]]. eapply sty_app; [eauto|].
    assert (G : sty_stmts S [ZIf e1 (pe e2) (pe e3)] S) by (apply sty_one; econstructor; eauto).
    destruct (pe e2) as [|x l]; [destruct (pe e3) as [|x l]|]; try exact G. constructor.
  - destruct Ht as [_ [_ [_ [H1 [_ [_ H2]]]]]]. rewrite pe_go. eapply sty_app; [|eauto].
    clear - H H2. induction H as [|x l Hx Hl IH]; [constructor|]. destruct H2 as [A B]. cbn [pes flat_map]. eapply sty_app; [eauto|apply IH; exact B].
Qed.
Lemma pes_sty : forall S es ts, Forall2 (has_ty S) es ts -> sty_stmts S (pes es) S.
Proof. induction 1; [constructor|]. cbn [pes flat_map]. eapply sty_app; [eapply pe_sty; eauto|auto]. Qed.
Lemma px_sty : forall s S S', sty_stmt S s S' -> sty_stmts S (px s) S'.
Proof.
  intros s. induction s using zstmt_ind'; intros S S' Ht; pose proof Ht as Ht'; inversion Ht; subst; cbn [px]; try (eapply sty_app; [eapply pe_sty; eauto|apply sty_one; exact Ht']); try (eapply sty_app; [eapply pes_sty; eauto|apply sty_one; exact Ht']).
  rewrite (px_go a), (px_go b). eapply sty_app; [eapply pe_sty; eauto|]. apply sty_one.
  assert (G : forall l, Forall (fun s => forall S S', sty_stmt S s S' -> sty_stmts S (px s) S') l -> forall S S', sty_stmts S l S' -> sty_stmts S (pxs l) S').
  { induction 1 as [|x l Hx Hl IH]; intros T T' HT; inversion HT; subst; [constructor|]. cbn [pxs flat_map]. eapply sty_app; eauto. }
  econstructor; eauto.
Qed.
Lemma pxs_sty : forall l S S', sty_stmts S l S' -> sty_stmts S (pxs l) S'.
Proof. induction l as [|s l IH]; intros S S' H; inversion H; subst; [constructor|]. cbn [pxs flat_map]. eapply sty_app; [eapply px_sty; eauto|eauto]. Qed.
Lemma pxs_app : forall a b, pxs (a ++ b) = pxs a ++ pxs b.
Proof. intros. apply flat_map_app. Qed.
Theorem extract_sty : forall p, sty_prog p -> sty_prog (extract_panics p).
Proof.
  intros p [A [[S B] [ss [es [C D]]]]]. split; [exact A|]. split; [exists S; apply pxs_sty; exact B|]. unfold extract_panics. cbn [zbody zret]. rewrite C, pxs_app.
  exists (pxs ss ++ pes es), es. split; auto. cbn [pxs flat_map px]. rewrite app_nil_r, app_assoc. reflexivity.
Qed.
Lemma noret_go : forall l, (fix go (l : list zstmt) : Prop := match l with [] => True | s :: r => noret s /\ go r end) l <-> Forall noret l.
Proof. induction l as [|s r IH]; [split; auto|]. split; [intros [A B]; constructor; tauto|intros H; inversion H; tauto]. Qed.
Lemma checks_noret : forall s, checks s -> noret s.
Proof.
  intros s. induction s using zstmt_ind'; cbn [checks noret]; auto. rewrite (checks_go a), (checks_go b), (noret_go a), (noret_go b). intros [A B].
  split; [clear - H A; induction H; auto; inversion A; auto|clear - H0 B; induction H0; auto; inversion B; auto].
Qed.
Lemma px_noret : forall s, noret s -> Forall noret (px s).
Proof.
  intros s. induction s using zstmt_ind'; intros N; cbn [px]; try (cbn [noret] in N; contradiction); rewrite Forall_app;
    (split; [eapply Forall_impl; [apply checks_noret|]; first [apply pe_checks|apply pes_checks]|]); auto.
  constructor; auto. cbn [noret] in *. rewrite (px_go a), (px_go b). rewrite !noret_go in *. destruct N as [A B]. unfold pxs. rewrite !Forall_flat_map.
  split; [clear - H A; induction H; auto; inversion A; auto|clear - H0 B; induction H0; auto; inversion B; auto].
Qed.
Theorem extract_ends : forall p, ends_return p -> ends_return (extract_panics p).
Proof.
  intros p [ss [es [C [D E]]]]. unfold ends_return, extract_panics. cbn [zbody zret]. rewrite C, pxs_app.
  exists (pxs ss ++ pes es), es. split; [cbn [pxs flat_map px]; rewrite app_nil_r, app_assoc; reflexivity|]. split; auto. apply Forall_app. split.
  - unfold pxs. rewrite Forall_flat_map. eapply Forall_impl; [|exact E]. apply px_noret.
  - eapply Forall_impl; [apply checks_noret|apply pes_checks].
Qed.
End Panic.
