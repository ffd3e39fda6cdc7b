(** Proofs about Writes.v: the flat program is typed and in the form the following passes need. *)
From Coq Require Import String Ascii.
From Coq Require Import ZArith NArith List Bool Lia.
From Verif Require Import PField Interp Bits Zir CgProg CgWf CgEnd UintOpt Panic DeadCode ZProp ZPropVars ZPropStmt Str Abi Typed Flatten FlattenOps FlattenSim FlattenRun FlattenTy FlattenShape FlattenEnd Writes Redefine WritesVal WritesExp WritesChoose WritesRun WritesEnd.
Import ListNotations.
Open Scope Z_scope.

Section WritesWf.
Context {PF : PrimeField}.

(** ** The types of the redefined statements *)
Definition styped_w (n n' : nat) (S S' : tctx) (l : list wstmt) : Prop := forall S1, xtn S S1 -> cfree n S1 -> exists S2, wstys S1 l S2 /\ xtn S' S2 /\ cfree n' S2.
Lemma wstys_app : forall a b S S1 S2, wstys S a S1 -> wstys S1 b S2 -> wstys S (a ++ b) S2.
Proof. induction a as [|s a IH]; intros b S S1 S2 H K; inversion H as [|? T ? ? ? X Y]; subst; [exact K|]. cbn [app]. eapply WTcons; [exact X|eapply IH; eassumption]. Qed.
Lemma wstys_WS : forall l S S1, tstys S l S1 -> wstys S (map WS l) S1.
Proof. induction l as [|s l IH]; intros S S1 H; inversion H as [|? T ? ? ? X Y]; subst; [constructor|]. cbn [map]. eapply WTcons; [apply WTS; exact X|apply IH; exact Y]. Qed.
Lemma wstys_one : forall s S S1, wsty S s S1 -> wstys S [s] S1.
Proof. intros s S S1 H. eapply WTcons; [exact H|constructor]. Qed.
Lemma path_weaken : forall S t p te, path_ty S t p te -> forall S1, xtn S S1 -> path_ty S1 t p te.
Proof.
  induction 1 as [t|ty n i r t Hn Ti H IH|ms m tm r t sa sb E N H IH|ts k tk r t E H IH]; intros S1 X; [constructor|constructor; [exact Hn|exact (proj1 weaken _ _ _ Ti S1 X)|exact (IH _ X)]|eapply PTmem; eauto|eapply PTelt; eauto].
Qed.
Lemma stmt_styped : forall S s S', wsty S s S' -> nnS S -> nnl (wdefs s) -> safe_write s = true -> forall n n' l, redef_ws n (remove_write s) = (n', l) -> styped_w n n' S S' l.
Proof.
  intros S s S' T NS ND Sw n n' l H. destruct T as [S s S1 T|S x t p e te Sx G Pt Te].
  - change (remove_write (WS s)) with (map WS [s]) in H. rewrite redef_ws_WS in H. destruct (redef_stmts n [s]) as [n1 l1] eqn:E. injection H as <- <-. cbn [wdefs] in ND.
    assert (ND1 : nnl (sdefss [s])) by (rewrite u_sdefss; change (sdefss []) with (@nil Z); rewrite app_nil_r; exact ND). destruct (proj2 (proj2 (proj2 redefine_ok)) _ _ _ (tstys_one _ _ _ T) NS ND1 _ _ _ E) as [_ [_ [Ty _]]].
    intros S2 X C. destruct (Ty S2 X C) as [S3 [A [B D]]]. exists S3. split; [apply wstys_WS; exact A|]. split; assumption.
  - cbn [safe_write] in Sw. apply andb_prop in Sw as [Ap Sw]. cbn [remove_write] in H. cbn [wdefs] in ND. destruct (const_path p) eqn:Cp.
    + cbn [redef_ws redef_w] in H. rewrite (const_defs p Cp) in ND. cbn [app] in ND. destruct (redef n e) as [[n1 b1] e1] eqn:Re. rewrite (const_redef p n1 Cp) in H. rewrite !app_nil_r in H. injection H as <- <-.
      destruct (proj1 redefine_ok _ _ _ Te NS ND _ _ _ _ Re) as [_ [Ty _]]. intros S1 X C. destruct (Ty S1 X C) as [S2 [A1 [A2 [A3 A4]]]]. exists S2. pose proof (xtn_trans _ _ _ X A2) as X2.
      split; [|split; assumption]. apply (wstys_app _ _ S1 S2); [apply wstys_WS; exact A1|]. apply wstys_one. eapply WTSet; [apply X2; exact Sx|exact G|exact (path_weaken _ _ _ _ Pt _ X2)|exact A4].
    + cbn [orb] in Sw. apply andb_prop in Sw as [Sw St]. apply andb_prop in Sw as [Pe Pp]. destruct (checks_defs _ _ _ _ Pt Pp) as [Dc Dp]. rewrite redef_ws_app, redef_ws_WS in H. destruct (redef_stmts n (range_checks t p)) as [n1 l1] eqn:E1. cbn [redef_ws redef_w redef_path] in H. destruct (redef n1 (choose_many (TId t x) t p e)) as [[n2 b2] e2] eqn:E2. rewrite !app_nil_r in H. injection H as <- <-.
      assert (ND1 : nnl (sdefss (range_checks t p))) by (rewrite Dc; intros y []). destruct (proj2 (proj2 (proj2 redefine_ok)) _ _ _ (checks_ty _ _ _ _ Pt) NS ND1 _ _ _ E1) as [_ [_ [Ty1 _]]].
      pose proof (choose_ty _ _ _ _ Pt (TId t x) e G (YId _ _ _ Sx) Te) as TE. pose proof (choose_plain p (TId t x) t e eq_refl Pe Pp) as PE. destruct (proj1 plain_flat _ _ _ TE PE) as [DE _]. assert (ND2 : nnl (tdefs (choose_many (TId t x) t p e))) by (rewrite DE; intros y []).
      destruct (proj1 redefine_ok _ _ _ TE NS ND2 _ _ _ _ E2) as [_ [Ty2 _]]. intros S1 X C. destruct (Ty1 S1 X C) as [S2 [A1 [A2 A3]]]. destruct (Ty2 S2 A2 A3) as [S3 [B1 [B2 [B3 B4]]]]. pose proof (xtn_trans _ _ _ A2 B2) as X2. exists S3.
      split; [|split; assumption]. apply (wstys_app _ _ S1 S2); [apply wstys_WS; exact A1|]. apply (wstys_app _ _ S2 S3); [apply wstys_WS; exact B1|]. apply wstys_one. eapply WTSet; [apply X2; exact Sx|exact G|constructor|exact B4].
Qed.
Lemma body_styped : forall ss S S', wstys S ss S' -> nnS S -> nnl (wdefss ss) -> forallb safe_write ss = true -> forall n n' l, redef_ws n (flat_map remove_write ss) = (n', l) -> styped_w n n' S S' l.
Proof.
  induction ss as [|s ss IH]; intros S S' T NS ND Sw n n' l H; inversion T as [|? S1 ? ? ? T1 T2]; subst.
  - injection H as <- <-. intros S1 X C. exists S1. split; [constructor|]. split; assumption.
  - cbn [flat_map] in H. rewrite redef_ws_app in H. destruct (redef_ws n (remove_write s)) as [n1 l1] eqn:E1. destruct (redef_ws n1 (flat_map remove_write ss)) as [n2 l2] eqn:E2. injection H as <- <-. cbn [forallb] in Sw. apply andb_prop in Sw as [Sw1 Sw2]. rewrite wdefss_cons in *. apply nnl_app in ND as [ND1 ND2].
    pose proof (stmt_runs _ _ _ T1 NS ND1 Sw1 _ _ _ E1) as [_ [NS1 _]]. pose proof (stmt_styped _ _ _ T1 NS ND1 Sw1 _ _ _ E1) as A. pose proof (IH _ _ T2 NS1 ND2 Sw2 _ _ _ E2) as B.
    intros S3 X C. destruct (A S3 X C) as [S4 [A1 [A2 A3]]]. destruct (B S4 A2 A3) as [S5 [B1 [B2 B3]]]. exists S5. split; [apply (wstys_app _ _ S3 S4); assumption|]. split; assumption.
Qed.
Lemma dom_wsty : forall S s S1, wsty S s S1 -> forall x, S1 x <> None -> S x <> None \/ In x (wdefs s).
Proof. intros S s S1 [? ? ? T|]; intros y Y; [exact (dom_tsty _ _ _ T y Y)|left; exact Y]. Qed.

(** ** The types of the flat statements *)
Lemma islice_map : forall A B (f : A -> B) l i j r, islice l i j = Some r -> islice (map f l) i j = Some (map f r).
Proof. intros A B f l i j r H. unfold islice in *. rewrite map_length. destruct (_ && _); [|discriminate H]. injection H as <-. rewrite skipn_map, firstn_map. reflexivity. Qed.
Lemma islice_mid : forall A (a b c : list A) i j r, length a = i -> length b = (j - i)%nat -> islice (a ++ b ++ c) i j = Some r -> r = b.
Proof.
  intros A a b c i j r Ha Hb H. unfold islice in H. destruct (_ && _); [|discriminate H]. injection H as <-. rewrite <- Ha, skipn_app, skipn_all, Nat.sub_diag. cbn [skipn app]. rewrite Ha, <- Hb, firstn_app, firstn_all, Nat.sub_diag. cbn [firstn]. apply app_nil_r.
Qed.
Lemma leaves_tuple : forall ts, leaves (CTuple ts) = flat_map leaves ts.
Proof. induction ts as [|t ts IH]; [reflexivity|]. cbn [flat_map]. rewrite <- IH. reflexivity. Qed.
Lemma leaves_struct : forall ms, leaves (CStruct ms) = flat_map (fun q => leaves (snd q)) ms.
Proof. induction ms as [|[m t] ts IH]; [reflexivity|]. cbn [flat_map snd]. rewrite <- IH. reflexivity. Qed.
Lemma leaves_sum : forall ts, length (flat_map leaves ts) = sum_count ts.
Proof. intros ts. rewrite <- leaves_tuple, leaves_count. induction ts as [|t ts IH]; [reflexivity|]. cbn [prim_count] in *. reflexivity. Qed.
Lemma rep_mid : forall A (L : list A) n i r, islice (concat (repeat L n)) (i * length L) ((i + 1) * length L) = Some r -> r = L.
Proof.
  intros A L n i r H. destruct (Nat.eq_dec (length L) 0) as [Z|NZ].
  { destruct L; [|discriminate Z]. cbn [length] in H. rewrite !Nat.mul_0_r in H. unfold islice in H. destruct (_ && _); [|discriminate H]. injection H as <-. reflexivity. }
  assert (Li : (i < n)%nat).
  { unfold islice in H. destruct (((i * length L <=? (i + 1) * length L) && ((i + 1) * length L <=? length (concat (repeat L n)))))%nat eqn:E; [|discriminate H]. apply andb_prop in E as [_ E]. apply Nat.leb_le in E.
    assert (Q : forall m, length (concat (repeat L m)) = (m * length L)%nat) by (induction m as [|m IH]; [reflexivity|]; cbn [repeat concat]; rewrite app_length, IH; reflexivity). rewrite Q in E. nia. }
  assert (Q : forall m, length (concat (repeat L m)) = (m * length L)%nat) by (induction m as [|m IH]; [reflexivity|]; cbn [repeat concat]; rewrite app_length, IH; reflexivity).
  replace n with (i + (1 + (n - i - 1)))%nat in H by lia. rewrite !repeat_app, !concat_app in H. cbn [repeat concat] in H. rewrite app_nil_r in H. eapply islice_mid in H; [exact H|apply Q|lia].
Qed.
Lemma assignees_leaves : forall S t p te, path_ty S t p te -> forall l r, assignees t p l = Some r -> map snd l = leaves t -> map snd r = leaves te /\ incl r l.
Proof.
  assert (IS : forall A (l : list A) i j r, islice l i j = Some r -> incl r l).
  { intros A l i j r H. apply islice_inv in H as [c [E _]]. rewrite E. apply incl_appr, incl_appl, incl_refl. }
  induction 1 as [t|ty n i r0 t Hn Ti H IH|ms m tm r0 t sa sb E N H IH|ts k tk r0 t E H IH]; intros l r A L; cbn [assignees] in A.
  - injection A as <-. split; [exact L|apply incl_refl].
  - destruct i as [|op [|? ?]| |]; try discriminate A; destruct op; try discriminate A. destruct (islice l _ _) as [l1|] eqn:E1; [|discriminate A]. pose proof (islice_map _ _ snd _ _ _ _ E1) as E2. rewrite L in E2. cbn [leaves] in E2. rewrite <- (leaves_count ty) in E2. apply rep_mid in E2. destruct (IH _ _ A E2) as [I1 I2]. split; [exact I1|]. exact (incl_tran I2 (IS _ _ _ _ _ E1)).
  - subst ms. rewrite (moffset_at _ _ _ _ N) in A. fold (tmem m (sa ++ (m, tm) :: sb)) in A. rewrite (tmem_at _ _ _ _ N) in A. destruct (islice l _ _) as [l1|] eqn:E1; [|discriminate A]. cbn [snd] in A. pose proof (islice_map _ _ snd _ _ _ _ E1) as E2. rewrite L, leaves_struct, flat_map_app in E2. cbn [flat_map snd] in E2.
    apply islice_mid in E2; [|rewrite <- leaves_sum, flat_map_concat_map, (flat_map_concat_map leaves), map_map; reflexivity|rewrite leaves_count; lia]. destruct (IH _ _ A E2) as [I1 I2]. split; [exact I1|]. exact (incl_tran I2 (IS _ _ _ _ _ E1)).
  - rewrite E in A. cbv zeta in A. destruct (islice l _ _) as [l1|] eqn:E1; [|discriminate A]. apply nth_error_split in E as [ta [tb [-> Lk]]]. pose proof (islice_map _ _ snd _ _ _ _ E1) as E2. rewrite L, leaves_tuple, flat_map_app in E2. cbn [flat_map] in E2.
    rewrite <- Lk, firstn_app, firstn_all, Nat.sub_diag in E2. cbn [firstn] in E2. rewrite app_nil_r in E2. apply islice_mid in E2; [|apply leaves_sum|rewrite leaves_count; lia]. destruct (IH _ _ A E2) as [I1 I2]. split; [exact I1|]. exact (incl_tran I2 (IS _ _ _ _ _ E1)).
Qed.
Lemma assign_types : forall ids zs Y0 Y, (forall x, Y x = Y0 x) -> Forall (fun p : sid * lty => Y0 (name (fst p)) = Some (lptype (snd p))) ids -> Forall2 (fun z (p : sid * lty) => lt1 Y0 z (snd p)) zs ids ->
  exists Y', sty_stmts Y (defs_zip ids zs) Y' /\ forall x, Y' x = Y0 x.
Proof.
  induction ids as [|p ids IH]; intros zs Y0 Y E D T; inversion T as [|z ? zs' ? Tz Tr]; subst; [exists Y; split; [constructor|exact E]|].
  assert (E1 : forall x, supd Y (name (fst p)) (lptype (snd p)) x = Y0 x). { intros x. unfold supd. destruct (Z.eqb_spec x (name (fst p))) as [->|_]; [symmetry; exact (Forall_inv D)|apply E]. }
  destruct (IH zs' Y0 _ E1 (Forall_inv_tail D) Tr) as [Y' [A B]]. exists Y'. split; [|exact B]. cbn [defs_zip combine map fst snd]. econstructor; [constructor|exact A]. apply (has_ty_agree z Y0); [intros x _; apply E|exact Tz].
Qed.
Theorem wflat_types : (131 <= required_bits)%nat -> forall l S S1, wstys S l S1 -> forall zs Y, wflat_stmts l = Some zs -> fresh S (wdefss l) -> reld S Y -> newd (wdefss l) Y ->
  exists Y', sty_stmts Y zs Y' /\ touchd (wdefss l) Y Y' /\ reld S1 Y'.
Proof.
  intros Hr. assert (One : forall s S S1, wsty S s S1 -> forall zs Y, wflat_stmts [s] = Some zs -> fresh S (wdefs s) -> reld S Y -> newd (wdefs s) Y -> exists Y', sty_stmts Y zs Y' /\ touchd (wdefs s) Y Y' /\ reld S1 Y').
  { intros s S S1 T zs Y F Fr R Nw. destruct T as [S s S1 T|S x t p e te Sx G Pt Te].
    - change [WS s] with (map WS [s]) in F. rewrite wflat_WS in F. cbn [wdefs] in *. change (tflat_stmts [s]) with (match tflat_stmt s with Some a => Some (a ++ []) | None => None end) in F. destruct (tflat_stmt s) as [za|] eqn:Ez; [|discriminate F]. injection F as <-. rewrite app_nil_r. exact (proj1 (proj2 (proj2 (flatten_types Hr))) _ _ _ T za Y Ez Fr R Nw).
    - apply u_wset in F as [ids [ss [ze [As [Fe [Li ->]]]]]]. cbn [wdefs] in *. destruct (fresh_app _ _ _ Fr) as [_ [F2 _]]. destruct (newd_app _ _ _ Nw) as [_ N2]. destruct (proj1 (flatten_types Hr) _ _ _ Te ss ze Y Fe F2 R N2) as [Y1 [A1 [A2 A3]]]. specialize (A3 Y1 (agreed_refl _ _ _)).
      assert (R1 : reld S Y1) by (apply (reld_touch _ Y _ (tdefs e)); assumption). destruct (assignees_leaves _ _ _ _ Pt _ _ As (ids_leaves t (SBase x))) as [L1 L2].
      destruct (assign_types ids ze Y1 Y1) as [Y' [B1 B2]]; [reflexivity| | |].
      + apply Forall_forall. intros q I. pose proof (R1 x t Sx) as D. unfold declares in D. rewrite Forall_forall in D. exact (D q (L2 q I)).
      + unfold zty in A3. rewrite <- L1 in A3. clear - A3. revert ze A3. induction ids as [|q ids IH]; intros ze A3; inversion A3; subst; constructor; [assumption|apply IH; assumption].
      + exists Y'. split; [apply (sty_app _ _ _ Y1); assumption|]. split; [intros s I; rewrite B2; apply A2; intros J; apply I, in_or_app; right; exact J|]. intros y u Ey. apply (declares_agree Y1); [apply R1; exact Ey|]. intros s _. apply B2. }
  induction l as [|s l IH]; intros S S1 T zs Y F Fr R Nw; inversion T as [|? S2 ? ? ? T1 T2]; subst.
  - injection F as <-. exists Y. split; [constructor|]. split; [apply touchd_refl|exact R].
  - change (s :: l) with ([s] ++ l) in F. apply wflat_app in F as [za [zb [Fa [Fb ->]]]]. rewrite wdefss_cons in *. destruct (fresh_app _ _ _ Fr) as [F1 [_ D]]. destruct (newd_app _ _ _ Nw) as [N1 N2]. destruct (One _ _ _ T1 za Y Fa F1 R N1) as [Y1 [A1 [A2 A3]]].
    assert (F2 : fresh S2 (wdefss l)) by (apply (fresh_next S S2 (wdefs s)); [exact Fr|apply dom_wsty; exact T1]). apply (newd_touch (wdefs s) _ Y Y1) in N2; [|assumption|exact D]. destruct (IH _ _ T2 zb Y1 Fb F2 A3 N2) as [Y2 [B1 [B2 B3]]].
    exists Y2. split; [apply (sty_app _ _ _ Y1); assumption|]. split; [apply (touchd_app _ _ _ Y1); assumption|exact B3].
Qed.

(** ** The form of the flat statements *)
Lemma anew_mono : forall s (D E : list ident), incl E D -> anew D s -> anew E s.
Proof. intros s D E H A. destruct s; try exact A; cbn [anew] in *; [destruct A as [A1 A2]; split; [|exact A2]; intros x X Y; exact (A1 x X (H x Y))|destruct A as [A|A]; [left; intros x X Y; exact (A x X (H x Y))|right; exact A]]. Qed.
Lemma anews_mono : forall l (D E : list ident), incl E D -> anews D l -> anews E l.
Proof. induction l as [|s l IH]; intros D E H A; [exact Logic.I|]. cbn [anews] in *. destruct A as [A B]. split; [exact (anew_mono _ _ _ H A)|]. apply (IH (defs s ++ D)); [|exact B]. intros x X. apply in_app_or in X as [X|X]; apply in_or_app; [left; exact X|right; exact (H x X)]. Qed.
Lemma anews_app : forall a b D, anews D a -> anews (defss a ++ D) b -> anews D (a ++ b).
Proof.
  induction a as [|s a IH]; intros b D A B; [exact B|]. cbn [anews app] in *. destruct A as [A1 A2]. split; [exact A1|]. apply IH; [exact A2|]. revert B. apply anews_mono. unfold defss. cbn [flat_map]. intros x X. rewrite !in_app_iff in *. tauto.
Qed.
Lemma zip_anews : forall ids zs D, anews D (defs_zip ids zs).
Proof. induction ids as [|p ids IH]; intros [|z zs] D; try exact Logic.I. cbn [defs_zip combine map anews]. split; [exact Logic.I|]. apply IH. Qed.
Lemma zip_form : forall ids zs, Forall noret (defs_zip ids zs) /\ Forall scoped (defs_zip ids zs).
Proof. induction ids as [|p ids IH]; intros [|z zs]; try (split; constructor; fail). cbn [defs_zip combine map]. destruct (IH zs) as [A B]. split; constructor; try exact Logic.I; assumption. Qed.
Lemma zip_defs : forall ids zs x, In x (defss (defs_zip ids zs)) -> exists p, In p ids /\ x = name (fst p).
Proof.
  induction ids as [|p ids IH]; intros [|z zs] x I; try (exfalso; exact I).
  cbn [defs_zip combine map] in I. unfold defss in I. cbn [flat_map defs app fst snd] in I. destruct I as [<-|I]; [exists p; split; [left; reflexivity|reflexivity]|]. destruct (IH zs x I) as [q [Q1 Q2]]. exists q. split; [right; exact Q1|exact Q2].
Qed.
Definition wform (S : tctx) (D : list Z) (zs : list zstmt) : Prop := Forall noret zs /\ Forall scoped zs /\ (forall x, In x (defss zs) -> of_vars (vis S D) x) /\
  forall (P : Z -> Prop) Dom, (forall x, In x Dom -> of_vars P x) -> (forall y, In y D -> ~ P y) -> anews Dom zs.
Lemma shaped_wform : forall S D zs, shaped S D zs -> wform S D zs.
Proof.
  intros S D zs [_ A B C E]. split; [exact C|]. split; [exact E|]. split; [intros x X; apply A in X; revert X; apply ov_mono; intros y Y; right; exact Y|]. intros P Dom HD HP. apply once_anews; [exact B|]. intros x X Y. destruct (of_vars_inj _ _ _ (A x X) (HD x Y)) as [y [Y1 Y2]]. exact (HP y Y1 Y2).
Qed.
Lemma wform_app : forall S S1 D E a b, wform S D a -> wform S1 E b -> (forall x, S1 x <> None -> vis S D x) -> (forall x, In x E -> ~ vis S D x) -> wform S (D ++ E) (a ++ b).
Proof.
  intros S S1 D E a b [A1 [A2 [A3 A4]]] [B1 [B2 [B3 B4]]] V N. split; [apply Forall_app; split; assumption|]. split; [apply Forall_app; split; assumption|]. split.
  - intros x X. rewrite defss_app in X. apply in_app_or in X as [X|X]; [apply A3 in X|apply B3 in X]; revert X; apply ov_mono; intros y [Y|Y]; [left; exact Y|right; apply in_or_app; left; exact Y| |right; apply in_or_app; right; exact Y]. destruct (V y Y) as [Z|Z]; [left; exact Z|right; apply in_or_app; left; exact Z].
  - intros P Dom HD HP. apply anews_app; [apply (A4 P); [exact HD|intros y Y; apply HP, in_or_app; left; exact Y]|]. apply (B4 (fun y => P y \/ vis S D y)).
    + intros x X. apply in_app_or in X as [X|X]; [apply A3 in X|apply HD in X]; revert X; apply ov_mono; tauto.
    + intros y Y [Q|Q]; [apply (HP y); [apply in_or_app; right; exact Y|exact Q]|exact (N y Y Q)].
Qed.
Theorem wflat_form : forall l S S1, wstys S l S1 -> forall zs, wflat_stmts l = Some zs -> fresh S (wdefss l) -> wform S (wdefss l) zs.
Proof.
  assert (One : forall s S S1, wsty S s S1 -> forall zs, wflat_stmts [s] = Some zs -> fresh S (wdefs s) -> wform S (wdefs s) zs).
  { intros s S S1 T zs F Fr. destruct T as [S s S1 T|S x t p e te Sx G Pt Te].
    - change [WS s] with (map WS [s]) in F. rewrite wflat_WS in F. cbn [wdefs] in *. change (tflat_stmts [s]) with (match tflat_stmt s with Some a => Some (a ++ []) | None => None end) in F. destruct (tflat_stmt s) as [za|] eqn:Ez; [|discriminate F]. injection F as <-. rewrite app_nil_r. apply shaped_wform. exact (proj1 (proj2 (proj2 flatten_shape)) _ _ _ T za Ez Fr).
    - apply u_wset in F as [ids [ss [ze [As [Fe [Li ->]]]]]]. cbn [wdefs] in *. destruct (fresh_app _ _ _ Fr) as [_ [F2 _]]. destruct (proj1 flatten_shape _ _ _ Te ss ze Fe F2) as [Sh _]. destruct (assignees_leaves _ _ _ _ Pt _ _ As (ids_leaves t (SBase x))) as [_ L2]. destruct (zip_form ids ze) as [Z1 Z2]. pose proof (shaped_wform _ _ _ Sh) as [A1 [A2 [A3 A4]]].
      split; [apply Forall_app; split; assumption|]. split; [apply Forall_app; split; assumption|]. split.
      + intros y Y. rewrite defss_app in Y. apply in_app_or in Y as [Y|Y]; [apply A3 in Y; revert Y; apply ov_mono; intros q [Q|Q]; [left; exact Q|right; apply in_or_app; right; exact Q]|]. destruct (zip_defs _ _ _ Y) as [[s lt] [Q1 ->]]. exists s. split; [reflexivity|]. left. rewrite (ids_base _ _ _ _ (L2 _ Q1)). cbn [base]. congruence.
      + intros P Dom HD HP. apply anews_app; [|apply zip_anews]. apply (A4 P); [exact HD|]. intros y Y. apply HP, in_or_app. right. exact Y. }
  induction l as [|s l IH]; intros S S1 T zs F Fr; inversion T as [|? S2 ? ? ? T1 T2]; subst.
  - injection F as <-. apply shaped_wform, shaped_nil.
  - change (s :: l) with ([s] ++ l) in F. apply wflat_app in F as [za [zb [Fa [Fb ->]]]]. rewrite wdefss_cons in *. destruct (fresh_app _ _ _ Fr) as [F1 [_ D]]. assert (F2 : fresh S2 (wdefss l)) by (apply (fresh_next S S2 (wdefs s)); [exact Fr|apply dom_wsty; exact T1]).
    apply (wform_app S S2); [exact (One _ _ _ T1 za Fa F1)|exact (IH _ _ T2 zb Fb F2)|exact (dom_wsty _ _ _ T1)|]. intros x X [V|V]; [apply V; apply (proj2 Fr); apply in_or_app; right; exact X|exact (D x V X)].
Qed.

(** ** Casts *)
Lemma all_app : forall A (P : A -> Prop) a b, all_of P (a ++ b) <-> all_of P a /\ all_of P b.
Proof. induction a as [|x a IH]; intros b; cbn [app all_of]; [tauto|]. rewrite IH. tauto. Qed.
Lemma all_forall : forall A (P : A -> Prop) l, (forall x, In x l -> P x) -> all_of P l.
Proof. induction l as [|x l IH]; intros H; [exact Logic.I|]. split; [apply H; left; reflexivity|apply IH; intros y Y; apply H; right; exact Y]. Qed.
Lemma all_in : forall A (P : A -> Prop) l x, all_of P l -> In x l -> P x.
Proof. induction l as [|y l IH]; intros x H I; [destruct I|]. destruct H as [A1 A2]. destruct I as [<-|I]; [exact A1|exact (IH x A2 I)]. Qed.
Lemma redef_cast : (forall S e t, tty S e t -> forall n n' b e', redef n e = (n', b, e') -> uncast_e e -> all_of uncast_s b /\ uncast_e e') /\
  (forall S es ts, ttys S es ts -> forall n n' b es', redefs n es = (n', b, es') -> all_of uncast_e es -> all_of uncast_s b /\ all_of uncast_e es') /\
  (forall S s S1, tsty S s S1 -> forall n n' l, redef_stmt n s = (n', l) -> uncast_s s -> all_of uncast_s l) /\
  (forall S ss S1, tstys S ss S1 -> forall n n' l, redef_stmts n ss = (n', l) -> all_of uncast_s ss -> all_of uncast_s l).
Proof.
  apply typed_ind.
  - intros S t x _ n n' b e' H _. injection H as <- <- <-. split; exact Logic.I.
  - intros S op args ts t _ IH _ n n' b e' H U. rewrite u_redef_op in H. destruct (redefs n args) as [[n1 b1] a1] eqn:E. injection H as <- <- <-. exact (IH _ _ _ _ E U).
  - intros S c x y t _ IHc _ IHx _ IHy n n' b e' H [U1 [U2 U3]]. cbn [redef] in H. destruct (redef n c) as [[n1 b1] c'] eqn:E1. destruct (IHc _ _ _ _ E1 U1) as [A1 A2].
    assert (Q : exists n2 bc c2, (if simple_cond c' then (n1, [], c') else (Datatypes.S n1, [TDef (cid n1) CBool c'], TId CBool (cid n1))) = (n2, bc, c2) /\ all_of uncast_s bc /\ uncast_e c2) by (destruct (simple_cond c'); eexists _, _, _; (split; [reflexivity|]); split; try exact Logic.I; [exact A2|split; [exact A2|exact Logic.I]]).
    destruct Q as [n2 [bc [c2 [E2 [B1 B2]]]]]. rewrite E2 in H. destruct (redef n2 x) as [[n3 b2] x'] eqn:E3. destruct (redef n3 y) as [[n4 b3] y'] eqn:E4. injection H as <- <- <-. destruct (IHx _ _ _ _ E3 U2) as [C1 C2]. destruct (IHy _ _ _ _ E4 U3) as [D1 D2]. split; [rewrite !all_app; tauto|]. split; [exact B2|]. split; assumption.
  - intros S S' bs e t _ IHs _ IHe n n' b e' H U. rewrite u_redef_block in H. rewrite u_ublock in U. destruct U as [U1 U2]. destruct (redef_stmts n bs) as [n1 bs1] eqn:E1. destruct (redef n1 e) as [[n2 b1] e1] eqn:E2. injection H as <- <- <-. destruct (IHe _ _ _ _ E2 U2) as [A1 A2]. split; [exact Logic.I|]. rewrite u_ublock, all_app. split; [split; [exact (IHs _ _ _ E1 U1)|exact A1]|exact A2].
  - intros S n n' b es' H _. injection H as <- <- <-. split; exact Logic.I.
  - intros S e r t ts _ IHe _ IHr n n' b es' H [U1 U2]. rewrite u_redef_list in H. destruct (redef n e) as [[n1 b1] e1] eqn:E1. destruct (redefs n1 r) as [[n2 b2] r1] eqn:E2. injection H as <- <- <-. destruct (IHe _ _ _ _ E1 U1) as [A1 A2]. destruct (IHr _ _ _ _ E2 U2) as [B1 B2]. split; [rewrite all_app; split; assumption|split; assumption].
  - intros S x t e _ _ IH n n' l H U. rewrite u_redef_def in H. destruct (redef n e) as [[n1 b1] e1] eqn:E1. injection H as <- <-. destruct (IH _ _ _ _ E1 U) as [A1 A2]. rewrite all_app. split; [exact A1|]. split; [exact A2|exact Logic.I].
  - intros S e err _ IH n n' l H U. rewrite u_redef_assert in H. destruct (redef n e) as [[n1 b1] e1] eqn:E1. injection H as <- <-. destruct (IH _ _ _ _ E1 U) as [A1 A2]. rewrite all_app. split; [exact A1|]. split; [exact A2|exact Logic.I].
  - intros S x t em args ts _ IH _ n n' l H U. rewrite u_redef_emb in H. destruct (redefs n args) as [[n1 b1] e1] eqn:E1. injection H as <- <-. rewrite u_uemb in U. destruct U as [U1 U2]. destruct (IH _ _ _ _ E1 U2) as [A1 A2]. rewrite all_app. split; [exact A1|]. split; [rewrite u_uemb; split; assumption|exact Logic.I].
  - intros S fmt args ts _ IH n n' l H U. rewrite u_redef_log in H. destruct (redefs n args) as [[n1 b1] e1] eqn:E1. injection H as <- <-. destruct (IH _ _ _ _ E1 U) as [A1 A2]. rewrite all_app. split; [exact A1|]. split; [exact A2|exact Logic.I].
  - intros S n n' l H _. injection H as <- <-. exact Logic.I.
  - intros S S1 S2 s r _ IHs _ IHr n n' l H [U1 U2]. rewrite u_redef_stmts in H. destruct (redef_stmt n s) as [n1 a] eqn:E1. destruct (redef_stmts n1 r) as [n2 b] eqn:E2. injection H as <- <-. rewrite all_app. split; [exact (IHs _ _ _ E1 U1)|exact (IHr _ _ _ E2 U2)].
Qed.
Lemma plain_uncast : forall S e t, tty S e t -> plain e = true -> uncast_e e.
Proof.
  assert (H : (forall S e t, tty S e t -> plain e = true -> uncast_e e) /\ (forall S es ts, ttys S es ts -> forallb plain es = true -> all_of uncast_e es) /\ (forall S s S1, tsty S s S1 -> True) /\ (forall S ss S1, tstys S ss S1 -> True)).
  { apply typed_ind; try (intros; exact Logic.I).
    - intros S op args ts t _ IH _ P. exact (IH P).
    - intros S c x y t _ IHc _ IHx _ IHy P. cbn [plain] in P. apply andb_prop in P as [P P3]. apply andb_prop in P as [P1 P2]. split; [exact (IHc P1)|]. split; [exact (IHx P2)|exact (IHy P3)].
    - intros S S' bs e t _ _ _ _ P. discriminate P.
    - intros S e r t ts _ IHe _ IHr P. cbn [forallb] in P. apply andb_prop in P as [P1 P2]. split; [exact (IHe P1)|exact (IHr P2)]. }
  exact (proj1 H).
Qed.
(** no conversion of a field element to a boolean in the program *)
Definition uncast_p (p : list access) : Prop := all_of (fun a => match a with ASel i => uncast_e i | _ => True end) p.
Definition uncast_w (s : wstmt) : Prop := match s with WS s => uncast_s s | WSet _ _ p e => uncast_p p /\ uncast_e e end.
Definition wuncast (p : wprog) : Prop := all_of uncast_w (wbody p) /\ uncast_e (wret p).
Lemma uncast_WS : forall l, all_of uncast_s l -> all_of uncast_w (map WS l).
Proof. induction l as [|s l IH]; intros H; [exact Logic.I|]. destruct H as [A B]. split; [exact A|exact (IH B)]. Qed.
Lemma checks_uncast : forall S t p te, path_ty S t p te -> uncast_p p -> all_of uncast_s (range_checks t p).
Proof.
  induction 1 as [t|ty n i r t Hn Ti H IH|ms m tm r t sa sb E N H IH|ts k tk r t E H IH]; intros U; cbn [range_checks]; [exact Logic.I| | |]; destruct U as [U1 U2].
  - split; [cbn; tauto|]. destruct (n =? 0)%nat; [exact Logic.I|exact (IH U2)].
  - subst ms. fold (tmem m (sa ++ (m, tm) :: sb)). rewrite (tmem_at _ _ _ _ N). exact (IH U2).
  - rewrite E. exact (IH U2).
Qed.
Lemma stmt_uncast : forall S s S', wsty S s S' -> nnS S -> nnl (wdefs s) -> safe_write s = true -> uncast_w s -> forall n n' l, redef_ws n (remove_write s) = (n', l) -> all_of uncast_w l.
Proof.
  intros S s S' T NS ND Sw U n n' l H. destruct T as [S s S1 T|S x t p e te Sx G Pt Te].
  - change (remove_write (WS s)) with (map WS [s]) in H. rewrite redef_ws_WS in H. destruct (redef_stmts n [s]) as [n1 l1] eqn:E. injection H as <- <-. apply uncast_WS. apply (proj2 (proj2 (proj2 redef_cast)) _ _ _ (tstys_one _ _ _ T) _ _ _ E). split; [exact U|exact Logic.I].
  - cbn [safe_write] in Sw. apply andb_prop in Sw as [Ap Sw]. cbn [remove_write] in H. destruct U as [U1 U2]. destruct (const_path p) eqn:Cp.
    + cbn [redef_ws redef_w] in H. destruct (redef n e) as [[n1 b1] e1] eqn:Re. rewrite (const_redef p n1 Cp) in H. rewrite !app_nil_r in H. injection H as <- <-. destruct (proj1 redef_cast _ _ _ Te _ _ _ _ Re U2) as [A1 A2]. rewrite all_app. split; [apply uncast_WS; exact A1|]. split; [split; [exact U1|exact A2]|exact Logic.I].
    + cbn [orb] in Sw. apply andb_prop in Sw as [Sw St]. apply andb_prop in Sw as [Pe Pp]. rewrite redef_ws_app, redef_ws_WS in H. destruct (redef_stmts n (range_checks t p)) as [n1 l1] eqn:E1. cbn [redef_ws redef_w redef_path] in H. destruct (redef n1 (choose_many (TId t x) t p e)) as [[n2 b2] e2] eqn:E2. rewrite !app_nil_r in H. injection H as <- <-.
      pose proof (choose_ty _ _ _ _ Pt (TId t x) e G (YId _ _ _ Sx) Te) as TE. pose proof (choose_plain p (TId t x) t e eq_refl Pe Pp) as PE. destruct (proj1 redef_cast _ _ _ TE _ _ _ _ E2 (plain_uncast _ _ _ TE PE)) as [A1 A2]. pose proof (proj2 (proj2 (proj2 redef_cast)) _ _ _ (checks_ty _ _ _ _ Pt) _ _ _ E1 (checks_uncast _ _ _ _ Pt U1)) as A3.
      rewrite !all_app. split; [apply uncast_WS; exact A3|]. split; [apply uncast_WS; exact A1|]. split; [split; [exact Logic.I|exact A2]|exact Logic.I].
Qed.
Lemma body_uncast : forall ss S S', wstys S ss S' -> nnS S -> nnl (wdefss ss) -> forallb safe_write ss = true -> all_of uncast_w ss -> forall n n' l, redef_ws n (flat_map remove_write ss) = (n', l) -> all_of uncast_w l.
Proof.
  induction ss as [|s ss IH]; intros S S' T NS ND Sw U n n' l H; inversion T as [|? S1 ? ? ? T1 T2]; subst.
  - injection H as <- <-. exact Logic.I.
  - cbn [flat_map] in H. rewrite redef_ws_app in H. destruct (redef_ws n (remove_write s)) as [n1 l1] eqn:E1. destruct (redef_ws n1 (flat_map remove_write ss)) as [n2 l2] eqn:E2. injection H as <- <-. cbn [forallb] in Sw. apply andb_prop in Sw as [Sw1 Sw2]. rewrite wdefss_cons in *. apply nnl_app in ND as [ND1 ND2]. destruct U as [U1 U2].
    pose proof (stmt_runs _ _ _ T1 NS ND1 Sw1 _ _ _ E1) as [_ [NS1 _]]. rewrite all_app. split; [exact (stmt_uncast _ _ _ T1 NS ND1 Sw1 U1 _ _ _ E1)|exact (IH _ _ T2 NS1 ND2 Sw2 U2 _ _ _ E2)].
Qed.
Lemma wflat_cast : forall l S S1, wstys S l S1 -> forall zs, wflat_stmts l = Some zs -> all_of uncast_w l -> Forall no_cast zs.
Proof.
  induction l as [|s l IH]; intros S S1 T zs F U; inversion T as [|? S2 ? ? ? T1 T2]; subst.
  - injection F as <-. constructor.
  - change (s :: l) with ([s] ++ l) in F. apply wflat_app in F as [za [zb [Fa [Fb ->]]]]. destruct U as [U1 U2]. apply Forall_app. split; [|exact (IH _ _ T2 zb Fb U2)]. clear - T1 Fa U1. destruct T1 as [S s S1 T|S x t p e te Sx G Pt Te].
    + change [WS s] with (map WS [s]) in Fa. rewrite wflat_WS in Fa. apply (proj2 (proj2 (proj2 flatten_cast)) _ _ _ (tstys_one _ _ _ T) _ Fa). split; [exact U1|exact Logic.I].
    + apply u_wset in Fa as [ids [ss [ze [As [Fe [Li ->]]]]]]. destruct U1 as [_ U1]. apply Forall_app. split; [exact (proj1 flatten_cast _ _ _ Te _ _ Fe U1)|apply defs_zip_cast].
Qed.

(** ** Programs *)
Theorem wcompile_wf : forall p z, (131 <= required_bits)%nat -> wwell_typed p -> nonneg_ids p -> forallb safe_write (wbody p) = true -> wcompile p = Some z ->
  sty_prog z /\ ends_return z /\ fresh_prog z /\ scoped_prog z /\ zret z = prim_count (wretty p) /\ zargs z = flat_map flat_param (wargs p) /\ (wuncast p -> no_cast_prog z).
Proof.
  intros p z Hr Wt Nn Sw H. destruct (wsetup p z Wt Nn H) as [S' [n1 [l [n2 [b [e' [zl [zb [sr [zs [T1 [T2 [NS [N1 [N2 [E1 [E2 [F1 [F2 [F3 ->]]]]]]]]]]]]]]]]]]]]. destruct Wt as [G [_ Nd]].
  pose proof (body_runs _ _ _ T1 NS N1 Sw _ _ _ E1) as [L1 [NS' [C1 _]]]. destruct (runs_expr S' _ _ T2 NS' N2 _ _ _ _ E2) as [L2 [C2 _]].
  assert (Fr : fresh (tparams (wargs p)) ((wdefss l ++ sdefss b) ++ tdefs e')).
  { apply (once_fresh _ _ (wdefss (wbody p) ++ tdefs (wret p)) n2).
    - intros y. specialize (C1 y). specialize (C2 y). rewrite !cnt_app in *. rewrite C1, (cids_split 0 n1 n2), cnt_app by lia. lia.
    - apply nodup_app_inv in Nd as [_ [Nd _]]. exact Nd.
    - apply nnl_app1; assumption.
    - intros y I. destruct (tparams (wargs p) y) as [t|] eqn:E; [|reflexivity]. exfalso. apply nodup_app_inv in Nd as [_ [_ Nd]]. apply (Nd y); [|exact I]. destruct (tparams_dom (wargs p) (fun _ => None) y) as [X|X]; [unfold tparams in E; rewrite E; discriminate|contradiction X; reflexivity|exact X].
    - exact NS. }
  (* the redefined statements are typed *)
  destruct (body_styped _ _ _ T1 NS N1 Sw _ _ _ E1 _ (xtn_refl _) (cfree_nn _ 0 NS)) as [S2 [W1 [W2 W3]]]. destruct (proj1 redefine_ok _ _ _ T2 NS' N2 _ _ _ _ E2) as [_ [Ty _]]. destruct (Ty S2 W2 W3) as [S3 [W4 [W5 [W6 W7]]]].
  pose proof (wstys_app _ _ _ _ _ W1 (wstys_WS _ _ _ W4)) as W8. assert (F8 : wflat_stmts (l ++ map WS b) = Some (zl ++ zb)) by (clear - F1 F2; revert zl F1; induction l as [|s l IH]; intros zl F1; [injection F1 as <-; cbn [app]; rewrite wflat_WS; exact F2|]; cbn [app wflat_stmts] in *; destruct (wflat_stmt s) as [za|]; [|discriminate F1]; destruct (wflat_stmts l) as [zc|]; [|discriminate F1]; injection F1 as <-; rewrite (IH zc eq_refl), app_assoc; reflexivity).
  assert (D8 : wdefss (l ++ map WS b) = wdefss l ++ sdefss b) by (rewrite wdefss_app, wdefss_WS; reflexivity). rewrite <- D8 in Fr. set (l8 := l ++ map WS b) in *. set (z8 := zl ++ zb) in *. assert (Dm : forall x, S3 x <> None -> vis (tparams (wargs p)) (wdefss l8) x).
  { clear - W8. revert W8. generalize (tparams (wargs p)). generalize l8. induction l0 as [|s r IH]; intros S T x X; inversion T as [|? S1 ? ? ? Ta Tb]; subst; [left; exact X|]. rewrite wdefss_cons. destruct (IH _ Tb x X) as [Y|Y]; [destruct (dom_wsty _ _ _ Ta x Y) as [Z|Z]; [left; exact Z|right; apply in_or_app; left; exact Z]|right; apply in_or_app; right; exact Y]. }
  destruct (fresh_app _ _ _ Fr) as [Fr1 [_ D]]. pose proof (fresh_next _ _ _ _ Fr Dm) as Fr2.
  assert (R0 : reld (fun _ => None) (fun _ => None)) by (intros x t Hx; discriminate Hx). destruct (sty_args (wargs p) _ _ G R0) as [R1 To]. change (fold_left _ (wargs p) (fun _ => None)) with (tparams (wargs p)) in R1. change (fold_left _ (flat_map flat_param (wargs p)) (fun _ => None)) with (sty_params (flat_map flat_param (wargs p))) in R1, To.
  assert (Np : forall y, In y (wdefss l8 ++ tdefs e') -> ~ In y (map pname (wargs p))).
  { intros y I J. pose proof (proj2 Fr y I) as X. clear - J X. assert (Q : forall ps (S : tctx), In y (map pname ps) \/ S y <> None -> fold_left (fun S p => cupd S (fst (fst p)) (snd (fst p))) ps S y <> None).
    { induction ps as [|q ps IH]; intros S [K|K]; [destruct K|exact K| |]; cbn [fold_left]; apply IH; [destruct K as [K|K]; [right; unfold cupd; fold (pname q); rewrite <- K, Z.eqb_refl; discriminate|left; exact K]|right; unfold cupd; destruct (y =? fst (fst q)); [discriminate|exact K]]. }
    exact (Q (wargs p) (fun _ => None) (or_introl J) X). }
  assert (Nw : newd (wdefss l8 ++ tdefs e') (sty_params (flat_map flat_param (wargs p)))) by (intros s I; rewrite To; [reflexivity|]; intros J; exact (Np _ I J)). destruct (newd_app _ _ _ Nw) as [Nw1 Nw2].
  destruct (wflat_types Hr _ _ _ W8 z8 _ F8 Fr1 R1 Nw1) as [Y1 [A1 [B1 K1]]]. assert (Nw3 : newd (tdefs e') Y1) by (apply (newd_touch _ _ _ _ Nw2 B1); exact D).
  destruct (proj1 (flatten_types Hr) _ _ _ W7 sr zs Y1 F3 Fr2 K1 Nw3) as [Y2 [A2 [B2 K2]]]. specialize (K2 Y2 (agreed_refl _ _ _)).
  pose proof (wflat_form _ _ _ W8 z8 F8 Fr1) as Sh1. destruct (proj1 flatten_shape _ _ _ W7 sr zs F3 Fr2) as [Sh2 _]. apply shaped_wform in Sh2.
  assert (Sh : wform (tparams (wargs p)) (wdefss l8 ++ tdefs e') (z8 ++ sr)) by (apply (wform_app _ S3); [exact Sh1|exact Sh2|exact Dm|]; intros x X [V|V]; [apply V, (proj2 Fr), in_or_app; right; exact X|exact (D x V X)]).
  assert (Lz : length zs = prim_count (wretty p)) by (rewrite <- leaves_count; exact (f2_len _ _ _ _ _ K2)). destruct Sh as [Q1 [Q2 [Q3 Q4]]].
  split; [|split; [|split; [|split; [|split; [reflexivity|split; [reflexivity|]]]]]].
  - unfold sty_prog. cbn [zargs zbody zret]. split; [|split].
    + clear - G Hr. induction (wargs p) as [|q ps IH]; [constructor|]. cbn [flat_map]. apply Forall_app. split; [|apply IH; exact (Forall_inv_tail G)]. unfold flat_param. apply Forall_forall. intros x I. apply in_map_iff in I as [[s lt] [<- _]]. cbn [zptype snd]. apply tywid_l. exact Hr.
    + exists Y2. apply (sty_app _ _ _ Y1); [exact A1|]. apply (sty_app _ _ _ Y2); [exact A2|]. apply sty_one. eapply SReturn. exact (zty_map _ _ _ K2).
    + exists (z8 ++ sr), zs. split; [rewrite app_assoc; reflexivity|exact Lz].
  - exists (z8 ++ sr), zs. cbn [zbody zret]. split; [rewrite app_assoc; reflexivity|]. split; [exact Lz|exact Q1].
  - unfold fresh_prog. cbn [zargs zbody]. rewrite app_assoc. apply anews_app; [|split; [exact Logic.I|exact Logic.I]]. apply (Q4 (fun y => In y (map pname (wargs p)))); [|exact Np]. apply nodup_app_inv in Nd as [Nd _]. exact (proj2 (params_once (wargs p) G Nd)).
  - unfold scoped_prog. cbn [zbody]. rewrite app_assoc. apply Forall_app. split; [exact Q2|]. constructor; [exact Logic.I|constructor].
  - intros [U1 U2]. unfold no_cast_prog. cbn [zbody]. rewrite app_assoc. apply Forall_app. split; [|constructor; [exact Logic.I|constructor]]. destruct (proj1 redef_cast _ _ _ T2 _ _ _ _ E2 U2) as [X1 X2]. apply Forall_app. split; [|exact (proj1 flatten_cast _ _ _ W7 _ _ F3 X2)].
    apply (wflat_cast _ _ _ W8 _ F8). unfold l8. rewrite all_app. split; [exact (body_uncast _ _ _ T1 NS N1 Sw U1 _ _ _ E1)|apply uncast_WS; exact X1].
Qed.
End WritesWf.
