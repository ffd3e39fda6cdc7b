(** The same for programs with assignments to parts, and for whole programs. *)
From Coq Require Import String Ascii.
From Coq Require Import ZArith NArith List Bool Lia.
From Verif Require Import PField Interp Bits Zir CgProg CgWf CgEnd UintOpt Panic DeadCode ZProp ZPropVars ZPropStmt ZPropType Source Str Abi Typed Flatten FlattenOps FlattenSim FlattenRun FlattenTy FlattenShape FlattenEnd Closed.
From Verif Require Import Writes Redefine WritesVal WritesExp WritesChoose WritesRun WritesEnd WritesWf.
Import ListNotations.
Open Scope Z_scope.

Section ClosedW.
Context {PF : PrimeField}.
(** ** The identifiers read *)
Notation zreads := FlattenShape.reads.
Definition ids_of (e : texp) : ident -> Prop := of_vars (fun y => In y (tids e)).
Lemma flat_tids : (forall S e t, tty S e t -> forall ss zs, tflat e = Some (ss, zs) -> zreads (ids_of e) zs) /\ (forall S es ts, ttys S es ts -> forall ss zss, tflats es = Some (ss, zss) -> Forall (zreads (of_vars (fun y => In y (tidss es)))) zss) /\
  (forall S s S1, tsty S s S1 -> True) /\ (forall S ss S1, tstys S ss S1 -> True).
Proof.
  apply typed_ind; try (intros; exact Logic.I).
  - intros S t x E ss zs H. cbn [tflat] in H. injection H as <- <-. apply Forall_forall. intros z Z. apply in_map_iff in Z as [[s l] [<- Z]]. cbn [evars fst]. intros y [<-|[]]. exists s. split; [reflexivity|]. cbn [tids]. left. symmetry. exact (id_in _ _ _ _ Z).
  - intros S op args ts t _ IH _ ss zs H. cbn [tflat] in H. destruct (flat_list tflat args) as [[sa zss]|] eqn:E; [|discriminate H]. destruct (comb op zss) as [zs'|] eqn:Ec; [|discriminate H]. injection H as <- <-. exact (comb_reads _ _ _ _ Ec (IH sa zss E)).
  - intros S c x y t _ IHc _ IHx _ IHy ss zs H. cbn [tflat] in H. destruct (tflat c) as [[sc zc]|] eqn:Ec; [|discriminate H]. destruct (tflat x) as [[sx zx]|] eqn:Ex; [|discriminate H]. destruct (tflat y) as [[sy zy]|] eqn:Ey; [|discriminate H].
    destruct (popE zc) as [z|] eqn:Ep; [|discriminate H]. destruct (zconds z zx zy) as [zs'|] eqn:Ez; [|discriminate H]. injection H as <- <-. apply (zconds_reads _ z zx zy zs' Ez).
    + intros q Q. apply (reads_pop _ _ _ (IHc _ _ eq_refl) Ep) in Q. revert Q. apply ov_mono. intros w W. cbn [tids]. apply in_or_app. left. exact W.
    + specialize (IHx _ _ eq_refl). revert IHx. apply reads_mono. intros q. apply ov_mono. intros w W. cbn [tids]. apply in_or_app. right. apply in_or_app. left. exact W.
    + specialize (IHy _ _ eq_refl). revert IHy. apply reads_mono. intros q. apply ov_mono. intros w W. cbn [tids]. apply in_or_app. right. apply in_or_app. right. exact W.
  - intros S S' bs e t _ _ _ IHe ss zs H. rewrite u_fblock in H. destruct (tflat_stmts bs) as [sa|] eqn:Ea; [|discriminate H]. destruct (tflat e) as [[sb zb]|] eqn:Eb; [|discriminate H]. injection H as <- <-. specialize (IHe _ _ eq_refl). revert IHe. apply reads_mono. intros q. apply ov_mono. intros w W. cbn [tids]. apply in_or_app. right. exact W.
  - intros S ss zss H. unfold tflats in H. cbn [flat_list] in H. injection H as <- <-. constructor.
  - intros S e es t ts _ IHe _ IHr ss zss H. unfold tflats in H. cbn [flat_list] in H. destruct (tflat e) as [[sa za]|] eqn:Ea; [|discriminate H]. destruct (flat_list tflat es) as [[sb zb]|] eqn:Eb; [|discriminate H]. cbn [fst snd] in H. injection H as <- <-. constructor.
    + specialize (IHe _ _ eq_refl). revert IHe. apply reads_mono. intros q. apply ov_mono. intros w W. unfold tidss. cbn [tdefs_list]. apply in_or_app. left. exact W.
    + specialize (IHr _ _ Eb). revert IHr. apply Forall_impl. intros zs. apply reads_mono. intros q. apply ov_mono. intros w W. unfold tidss. cbn [tdefs_list]. apply in_or_app. right. exact W.
Qed.
(** in an expression without blocks: the components of the visible variables *)
Definition comps (S : tctx) (y : ident) : Prop := exists x t s l, S x = Some t /\ In (s, l) (flat_ids (SBase x) t) /\ y = name s.
Lemma flat_comps : (forall S e t, tty S e t -> plain e = true -> forall ss zs, tflat e = Some (ss, zs) -> zreads (comps S) zs) /\ (forall S es ts, ttys S es ts -> forallb plain es = true -> forall ss zss, tflats es = Some (ss, zss) -> Forall (zreads (comps S)) zss) /\
  (forall S s S1, tsty S s S1 -> True) /\ (forall S ss S1, tstys S ss S1 -> True).
Proof.
  apply typed_ind; try (intros; exact Logic.I).
  - intros S t x E _ ss zs H. cbn [tflat] in H. injection H as <- <-. apply Forall_forall. intros z Z. apply in_map_iff in Z as [[s l] [<- Z]]. cbn [evars fst]. intros y [<-|[]]. exists x, t, s, l. auto.
  - intros S op args ts t _ IH _ Pl ss zs H. cbn [tflat] in H. destruct (flat_list tflat args) as [[sa zss]|] eqn:E; [|discriminate H]. destruct (comb op zss) as [zs'|] eqn:Ec; [|discriminate H]. injection H as <- <-. exact (comb_reads _ _ _ _ Ec (IH Pl sa zss E)).
  - intros S c x y t _ IHc _ IHx _ IHy Pl ss zs H. cbn [plain] in Pl. apply andb_prop in Pl as [Pl P3]. apply andb_prop in Pl as [P1 P2]. cbn [tflat] in H. destruct (tflat c) as [[sc zc]|] eqn:Ec; [|discriminate H]. destruct (tflat x) as [[sx zx]|] eqn:Ex; [|discriminate H]. destruct (tflat y) as [[sy zy]|] eqn:Ey; [|discriminate H].
    destruct (popE zc) as [z|] eqn:Ep; [|discriminate H]. destruct (zconds z zx zy) as [zs'|] eqn:Ez; [|discriminate H]. injection H as <- <-. exact (zconds_reads _ z zx zy zs' Ez (reads_pop _ _ _ (IHc P1 _ _ eq_refl) Ep) (IHx P2 _ _ eq_refl) (IHy P3 _ _ eq_refl)).
  - intros S S' bs e t _ _ _ _ Pl. discriminate Pl.
  - intros S _ ss zss H. unfold tflats in H. cbn [flat_list] in H. injection H as <- <-. constructor.
  - intros S e es t ts _ IHe _ IHr Pl ss zss H. cbn [forallb] in Pl. apply andb_prop in Pl as [P1 P2]. unfold tflats in H. cbn [flat_list] in H. destruct (tflat e) as [[sa za]|] eqn:Ea; [|discriminate H]. destruct (flat_list tflat es) as [[sb zb]|] eqn:Eb; [|discriminate H]. cbn [fst snd] in H. injection H as <- <-. constructor; [exact (IHe P1 _ _ eq_refl)|exact (IHr P2 _ _ Eb)].
Qed.
(** condition variables are negative: the others read after condition_redefiner.rs were read before *)
Lemma cid_neg : forall n, cid n < 0.
Proof. intros n. unfold cid. lia. Qed.
Lemma redef_tids : (forall S e t, tty S e t -> forall n n' b e', redef n e = (n', b, e') -> forall x, 0 <= x -> In x (sidss b ++ tids e') -> In x (tids e)) /\
  (forall S es ts, ttys S es ts -> forall n n' b es', redefs n es = (n', b, es') -> forall x, 0 <= x -> In x (sidss b ++ tidss es') -> In x (tidss es)) /\
  (forall S s S1, tsty S s S1 -> forall n n' l, redef_stmt n s = (n', l) -> forall x, 0 <= x -> In x (sidss l) -> In x (sids s)) /\
  (forall S ss S1, tstys S ss S1 -> forall n n' l, redef_stmts n ss = (n', l) -> forall x, 0 <= x -> In x (sidss l) -> In x (sidss ss)).
Proof.
  assert (Sa : forall a b, sidss (a ++ b) = sidss a ++ sidss b) by (induction a as [|s a IH]; intros b; [reflexivity|]; unfold sidss in *; cbn [app tdefs_stmts]; rewrite IH, app_assoc; reflexivity).
  assert (Sb : forall ss e, tids (TBlock ss e) = sidss ss ++ tids e) by reflexivity.
  apply typed_ind.
  - intros S t x _ n n' b e' H y _ I. injection H as <- <- <-. exact I.
  - intros S op args ts t _ IH _ n n' b e' H x X I. rewrite u_redef_op in H. destruct (redefs n args) as [[n1 b1] a1] eqn:E. injection H as <- <- <-. exact (IH _ _ _ _ E x X I).
  - intros S c x y t _ IHc _ IHx _ IHy n n' b e' H q X I. cbn [redef] in H. destruct (redef n c) as [[n1 b1] c'] eqn:E1.
    destruct (if simple_cond c' then (n1, [], c') else (Datatypes.S n1, [TDef (cid n1) CBool c'], TId CBool (cid n1))) as [[n2 bc] c2] eqn:E2. destruct (redef n2 x) as [[n3 b2] x'] eqn:E3. destruct (redef n3 y) as [[n4 b3] y'] eqn:E4. injection H as <- <- <-.
    pose proof (IHc _ _ _ _ E1 q X) as Hc. pose proof (IHx _ _ _ _ E3 q X) as Hx. pose proof (IHy _ _ _ _ E4 q X) as Hy.
    assert (Q : In q (sidss bc ++ tids c2) -> In q (tids c')). { destruct (simple_cond c'); injection E2 as <- <- <-; [exact (fun h => h)|]. unfold sidss. cbn [tdefs_stmts sids tids]. rewrite app_nil_r. intros J. apply in_app_or in J as [J|[J|[]]]; [exact J|]. pose proof (cid_neg n1). lia. }
    cbn [tids] in *. rewrite !Sa in I. rewrite !in_app_iff in *. tauto.
  - intros S S' bs e t _ IHs _ IHe n n' b e' H x X I. rewrite u_redef_block in H. destruct (redef_stmts n bs) as [n1 bs1] eqn:E1. destruct (redef n1 e) as [[n2 b1] e1] eqn:E2. injection H as <- <- <-. pose proof (IHs _ _ _ E1 x X). pose proof (IHe _ _ _ _ E2 x X). rewrite Sb in *. rewrite Sa in I. change (sidss []) with (@nil Z) in I. cbn [app] in I. rewrite !in_app_iff in *. tauto.
  - intros S n n' b es' H x _ I. injection H as <- <- <-. exact I.
  - intros S e r t ts _ IHe _ IHr n n' b es' H x X I. rewrite u_redef_list in H. destruct (redef n e) as [[n1 b1] e1] eqn:E1. destruct (redefs n1 r) as [[n2 b2] r1] eqn:E2. injection H as <- <- <-. pose proof (IHe _ _ _ _ E1 x X). pose proof (IHr _ _ _ _ E2 x X). unfold tidss in *. cbn [tdefs_list] in *. rewrite Sa in I. rewrite !in_app_iff in *. tauto.
  - intros S x t e _ _ IH n n' l H q X I. rewrite u_redef_def in H. destruct (redef n e) as [[n1 b1] e1] eqn:E1. injection H as <- <-. apply (IH _ _ _ _ E1 q X). rewrite Sa in I. unfold sidss at 2 in I. cbn [tdefs_stmts sids] in I. rewrite app_nil_r in I. exact I.
  - intros S e err _ IH n n' l H q X I. rewrite u_redef_assert in H. destruct (redef n e) as [[n1 b1] e1] eqn:E1. injection H as <- <-. apply (IH _ _ _ _ E1 q X). rewrite Sa in I. unfold sidss at 2 in I. cbn [tdefs_stmts sids] in I. rewrite app_nil_r in I. exact I.
  - intros S x t em args ts _ IH _ n n' l H q X I. rewrite u_redef_emb in H. destruct (redefs n args) as [[n1 b1] e1] eqn:E1. injection H as <- <-. apply (IH _ _ _ _ E1 q X). rewrite Sa in I. unfold sidss at 2 in I. cbn [tdefs_stmts sids] in I. rewrite app_nil_r in I. exact I.
  - intros S fmt args ts _ IH n n' l H q X I. rewrite u_redef_log in H. destruct (redefs n args) as [[n1 b1] e1] eqn:E1. injection H as <- <-. apply (IH _ _ _ _ E1 q X). rewrite Sa in I. unfold sidss at 2 in I. cbn [tdefs_stmts sids] in I. rewrite app_nil_r in I. exact I.
  - intros S n n' l H x _ I. injection H as <- <-. exact I.
  - intros S S1 S2 s r _ IHs _ IHr n n' l H x X I. rewrite u_redef_stmts in H. destruct (redef_stmt n s) as [n1 a] eqn:E1. destruct (redef_stmts n1 r) as [n2 b] eqn:E2. injection H as <- <-. pose proof (IHs _ _ _ E1 x X). pose proof (IHr _ _ _ E2 x X). rewrite Sa in I. unfold sidss in *. cbn [tdefs_stmts]. rewrite !in_app_iff in *. tauto.
Qed.

(** ** Assignments to parts *)
Definition steady_w (s : wstmt) : Prop := match s with WS _ => True | WSet x t p e => (exists te, part_ty t p = Some te /\ scalar te = true) \/ ~ In x (tids e) \/ plain e = true end.
Lemma zip_later : forall ids zs C D C1 l1, cst_lit C -> (forall C' D', cst_lit C' -> (forall y, ~ In y (map (fun p : sid * lty => name (fst p)) ids) -> C' y = C y) -> incl D D' -> (forall y, okv C D y -> okv C' D' y) -> Forall (rd C' D') zs) ->
  prop_stmts C (defs_zip ids zs) = Some (C1, l1) -> reads_oks D l1 = true.
Proof.
  induction ids as [|p ids IH]; intros [|z zs] C D C1 l1 Lc H E; try (injection E as <- <-; reflexivity).
  cbn [defs_zip combine map prop_stmts prop_stmt fst snd] in E. destruct (prop C z) as [z'|] eqn:Ez; [|discriminate E]. cbn [obind] in E.
  pose proof (H C D Lc (fun y _ => eq_refl) (incl_refl D) (fun y Y => Y)) as F. set (x := name (fst p)) in *. cbn [map] in H. fold x in H.
  destruct (is_const z') eqn:K; cbn [fst snd] in E; fold (defs_zip ids zs) in E.
  - destruct (prop_stmts (cadd C x z') (defs_zip ids zs)) as [[C2 l2]|] eqn:E2; [|discriminate E]. cbn [obind fst snd app] in E. injection E as <- <-. apply (IH zs (cadd C x z') D C2 l2); [intros y c; unfold cadd; destruct (y =? x); [intros X; injection X as <-; exact K|apply Lc]| |exact E2].
    intros C' D' Lc' Ag I M. assert (Q : Forall (rd C' D') (z :: zs)); [|exact (Forall_inv_tail Q)]. apply H; [exact Lc'| |exact I|].
    + intros y N. rewrite Ag by (intros Y; apply N; right; exact Y). unfold cadd. destruct (Z.eqb_spec y x) as [->|_]; [exfalso; apply N; left; reflexivity|reflexivity].
    + intros y O. apply M. unfold okv, cadd in *. destruct (y =? x); [left; discriminate|exact O].
  - destruct (prop_stmts (cdel C x) (defs_zip ids zs)) as [[C2 l2]|] eqn:E2; [|discriminate E]. cbn [obind fst snd app] in E. injection E as <- <-. cbn [reads_oks reads_ok defs app]. apply andb_true_intro. split; [apply inclb_ok; exact (Forall_inv F z' Ez)|].
    apply (IH zs (cdel C x) (x :: D) C2 l2); [intros y c; unfold cdel; destruct (y =? x); [discriminate|apply Lc]| |exact E2].
    intros C' D' Lc' Ag I M. assert (Q : Forall (rd C' D') (z :: zs)); [|exact (Forall_inv_tail Q)]. apply H; [exact Lc'| |intros y Y; apply I; right; exact Y|].
    + intros y N. rewrite Ag by (intros Y; apply N; right; exact Y). unfold cdel. destruct (Z.eqb_spec y x) as [->|_]; [exfalso; apply N; left; reflexivity|reflexivity].
    + intros y O. apply M. unfold okv, cdel in *. destruct (Z.eqb_spec y x) as [->|_]; [right; left; reflexivity|]. destruct O as [O|O]; [left; exact O|right; right; exact O].
Qed.
Theorem wflat_closed : forall l S S1, wstys S l S1 -> Forall steady_w l -> forall zs C D C1 l1, wflat_stmts l = Some zs -> fresh S (wdefss l) -> cst_lit C -> inv S C D -> prop_stmts C zs = Some (C1, l1) -> reads_oks D l1 = true /\ inv S1 C1 (defss l1 ++ D).
Proof.
  assert (One : forall s S S1, wsty S s S1 -> steady_w s -> forall zs C D C1 l1, wflat_stmts [s] = Some zs -> fresh S (wdefs s) -> cst_lit C -> inv S C D -> prop_stmts C zs = Some (C1, l1) -> reads_oks D l1 = true /\ inv S1 C1 (defss l1 ++ D)).
  { intros s S S1 T St zs C D C1 l1 F Fr Lc I P. destruct T as [S s S1 T|S x t p e te Sx G Pt Te].
    - change [WS s] with (map WS [s]) in F. rewrite wflat_WS in F. cbn [wdefs] in *. change (tflat_stmts [s]) with (match tflat_stmt s with Some a => Some (a ++ []) | None => None end) in F. destruct (tflat_stmt s) as [za|] eqn:Ez; [|discriminate F]. injection F as <-. rewrite app_nil_r in P. exact (proj1 (proj2 (proj2 flatten_closed)) _ _ _ T za C D C1 l1 Ez Fr Lc I P).
    - pose proof (inv_moves _ _ _ _ _ _ (prop_moves _ _ _ _ P) I) as I1. split; [|exact I1]. clear I1. apply u_wset in F as [ids [ss [ze [As [Fe [Li ->]]]]]]. cbn [wdefs] in *. destruct (fresh_app _ _ _ Fr) as [_ [F2 _]]. destruct (proj1 flatten_shape _ _ _ Te ss ze Fe F2) as [Sh Re]. destruct (assignees_leaves _ _ _ _ Pt _ _ As (ids_leaves t (SBase x))) as [L1 L2].
      apply prop_stmts_app in P as [Ca [la [lb [Pa [Pb ->]]]]]. destruct (proj1 flatten_closed _ _ _ Te ss ze C D Ca la Fe F2 Lc I Pa) as [A B]. pose proof (prop_lit _ _ _ _ Lc Pa) as La. pose proof (inv_moves _ _ _ _ _ _ (prop_moves _ _ _ _ Pa) I) as Ia. apply roks_app; [exact A|].
      assert (Nm : forall y, In y (map (fun p : sid * lty => name (fst p)) ids) -> of_vars (fun q => q = x) y) by (intros y Y; apply in_map_iff in Y as [[s lt] [<- Y]]; exists s; split; [reflexivity|]; exact (id_in _ _ _ _ (L2 _ Y))).
      destruct St as [[tp [Ptp Sc]]|[Nx|Pl]].
      + pose proof (path_part _ _ _ _ Pt) as Pp. rewrite Pp in Ptp. injection Ptp as ->. assert (Ln : length ids = 1%nat) by (rewrite <- (map_length snd), L1; destruct tp; try discriminate Sc; reflexivity). destruct ids as [|q [|]]; try discriminate Ln. destruct ze as [|z [|]]; try discriminate Li.
        cbn [defs_zip combine map prop_stmts prop_stmt fst snd] in Pb. destruct (prop Ca z) as [z'|] eqn:Ez; [|discriminate Pb]. cbn [obind] in Pb. destruct (is_const z'); cbn [obind fst snd app] in Pb; injection Pb as <- <-; [reflexivity|]. cbn [reads_oks reads_ok]. rewrite andb_true_r. apply inclb_ok. exact (Forall_inv B z' Ez).
      + apply (zip_later ids ze Ca _ C1 lb La); [|exact Pb]. intros C' D' _ Ag Ic _. pose proof (proj1 flat_tids _ _ _ Te _ _ Fe) as Rt. unfold FlattenShape.reads in Rt. rewrite Forall_forall in B, Rt |- *. intros z Z. apply (rd_ext Ca C' (defss la ++ D) D' z); [|exact Ic|exact (B z Z)].
        intros y Y. apply Ag. intros Y2. destruct (of_vars_inj _ _ _ (Rt z Z y Y) (Nm y Y2)) as [w [W1 W2]]. subst w. exact (Nx W1).
      + apply (zip_later ids ze Ca _ C1 lb La); [|exact Pb]. intros C' D' Lc' _ _ M.
        pose proof (proj1 flat_comps _ _ _ Te Pl _ _ Fe) as Rc. unfold FlattenShape.reads in Rc. rewrite Forall_forall in Rc |- *. intros z Z. apply rd_vars; [exact Lc'|]. intros y Y. apply M. destruct (Rc z Z y Y) as [q [u [s [lt [Q1 [Q2 ->]]]]]]. exact (Ia q u s lt Q1 Q2). }
  induction l as [|s l IH]; intros S S1 T St zs C D C1 l1 F Fr Lc I P; inversion T as [|? S2 ? ? ? T1 T2]; subst.
  - injection F as <-. injection P as <- <-. split; [reflexivity|exact I].
  - change (s :: l) with ([s] ++ l) in F. apply wflat_app in F as [za [zb [Fa [Fb ->]]]]. rewrite wdefss_cons in *. destruct (fresh_app _ _ _ Fr) as [F1 [_ _]]. assert (F2 : fresh S2 (wdefss l)) by (apply (fresh_next S S2 (wdefs s)); [exact Fr|apply dom_wsty; exact T1]).
    apply prop_stmts_app in P as [Ca [la [lb [Pa [Pb ->]]]]]. destruct (One _ _ _ T1 (Forall_inv St) za C D Ca la Fa F1 Lc I Pa) as [A1 I1]. destruct (IH _ _ T2 (Forall_inv_tail St) zb Ca _ C1 lb Fb F2 (prop_lit _ _ _ _ Lc Pa) I1 Pb) as [A2 I2]. split; [apply roks_app; assumption|]. rewrite defss_app. exact (inv_incl _ _ _ _ (app3 _ _ _) I2).
Qed.
(** the assignments left by variable_write_remover.rs and condition_redefiner.rs *)
Lemma steady_WS : forall b, Forall steady_w (map WS b).
Proof. induction b; constructor; [exact Logic.I|assumption]. Qed.
Lemma stmt_steady : forall S s S', wsty S s S' -> nnS S -> safe_write s = true -> forall n n' l, redef_ws n (remove_write s) = (n', l) -> Forall steady_w l.
Proof.
  intros S s S' T NS Sw n n' l H. destruct T as [S s S1 T|S x t p e te Sx G Pt Te].
  - cbn [remove_write redef_ws redef_w] in H. destruct (redef_stmt n s) as [n1 a]. rewrite app_nil_r in H. injection H as <- <-. apply steady_WS.
  - cbn [safe_write] in Sw. apply andb_prop in Sw as [Ap Sw]. assert (Nx : 0 <= x) by (apply NS; congruence). cbn [remove_write] in H. destruct (const_path p) eqn:Cp.
    + cbn [redef_ws redef_w] in H. destruct (redef n e) as [[n1 b1] e1] eqn:E1. destruct (redef_path n1 p) as [[n2 b2] p1] eqn:E2. cbn [app] in H. rewrite app_nil_r in H. injection H as <- <-. apply Forall_app. split; [apply steady_WS|]. constructor; [|constructor]. cbn [steady_w].
      assert (Ep : part_ty t p1 = part_ty t p).
      { clear - E2 Cp. revert t n1 n2 b2 p1 E2. induction p as [|a p IH]; intros t n1 n2 b2 p1 E2; [injection E2 as <- <- <-; reflexivity|]. assert (Cp' : const_path p = true) by (destruct a; cbn [const_path] in Cp; [apply andb_prop in Cp as [_ Cp]; exact Cp|exact Cp|exact Cp]). clear Cp. rename Cp' into Cp.
        destruct a; cbn [redef_path] in E2; [destruct (redef n1 i) as [[m1 c1] i'] eqn:Ei; destruct (redef_path m1 p) as [[m2 c2] q] eqn:Eq|destruct (redef_path n1 p) as [[m2 c2] q] eqn:Eq|destruct (redef_path n1 p) as [[m2 c2] q] eqn:Eq]; injection E2 as <- <- <-; destruct t; cbn [part_ty]; try reflexivity; first [exact (IH Cp _ _ _ _ _ Eq)|destruct (find _ _) as [w|]; [exact (IH Cp _ _ _ _ _ Eq)|reflexivity]|destruct (nth_error _ _) as [w|]; [exact (IH Cp _ _ _ _ _ Eq)|reflexivity]]. }
      rewrite Ep. unfold apart in Ap. apply orb_prop in Ap as [Ap|Ap]; [right; left; intros J; apply negb_true_iff, reads_false in Ap; apply Ap; apply (proj1 redef_tids _ _ _ Te _ _ _ _ E1 x Nx); apply in_or_app; right; exact J|]. left. destruct (part_ty t p) as [tp|]; [|discriminate Ap]. exists tp. split; [reflexivity|exact Ap].
    + cbn [orb] in Sw. apply andb_prop in Sw as [Sw St]. apply andb_prop in Sw as [Pe Pp]. rewrite redef_ws_app, redef_ws_WS in H. destruct (redef_stmts n (range_checks t p)) as [n1 l1] eqn:E1. cbn [redef_ws redef_w redef_path] in H. destruct (redef n1 (choose_many (TId t x) t p e)) as [[n2 b2] e2] eqn:E2. rewrite !app_nil_r in H. injection H as <- <-.
      pose proof (choose_ty _ _ _ _ Pt (TId t x) e G (YId _ _ _ Sx) Te) as TE. pose proof (choose_plain p (TId t x) t e eq_refl Pe Pp) as PE. destruct (proj1 redef_plain _ _ _ TE NS PE _ _ _ _ E2) as [_ [PE' _]].
      apply Forall_app. split; [apply steady_WS|]. apply Forall_app. split; [apply steady_WS|]. constructor; [|constructor]. right. right. exact PE'.
Qed.
Lemma body_steady : forall ss S S', wstys S ss S' -> nnS S -> nnl (wdefss ss) -> forallb safe_write ss = true -> forall n n' l, redef_ws n (flat_map remove_write ss) = (n', l) -> Forall steady_w l.
Proof.
  induction ss as [|s ss IH]; intros S S' T NS ND Sw n n' l H; inversion T as [|? S1 ? ? ? T1 T2]; subst.
  - injection H as <- <-. constructor.
  - cbn [flat_map] in H. rewrite redef_ws_app in H. destruct (redef_ws n (remove_write s)) as [n1 l1] eqn:E1. destruct (redef_ws n1 (flat_map remove_write ss)) as [n2 l2] eqn:E2. injection H as <- <-. cbn [forallb] in Sw. apply andb_prop in Sw as [Sw1 Sw2]. rewrite wdefss_cons in *. apply nnl_app in ND as [ND1 ND2].
    pose proof (stmt_runs _ _ _ T1 NS ND1 Sw1 _ _ _ E1) as [_ [NS1 _]]. apply Forall_app. split; [exact (stmt_steady _ _ _ T1 NS Sw1 _ _ _ E1)|exact (IH _ _ T2 NS1 ND2 Sw2 _ _ _ E2)].
Qed.

(** ** Programs *)
Theorem wcompile_closed_prog : forall p z p1, wwell_typed p -> nonneg_ids p -> forallb safe_write (wbody p) = true -> wcompile p = Some z -> propagate z = Some p1 -> closed_prog p1 = true.
Proof.
  intros p z p1 Wt Nn Sw H P. destruct (wsetup p z Wt Nn H) as [S' [n1 [l [n2 [b [e' [zl [zb [sr [zs [T1 [T2 [NS [N1 [N2 [E1 [E2 [F1 [F2 [F3 ->]]]]]]]]]]]]]]]]]]]]. destruct Wt as [G [_ Nd]].
  pose proof (body_runs _ _ _ T1 NS N1 Sw _ _ _ E1) as [L1 [NS' [C1 _]]]. destruct (runs_expr S' _ _ T2 NS' N2 _ _ _ _ E2) as [L2 [C2 _]].
  assert (Fr : fresh (tparams (wargs p)) ((wdefss l ++ sdefss b) ++ tdefs e')).
  { apply (once_fresh _ _ (wdefss (wbody p) ++ tdefs (wret p)) n2).
    - intros y. specialize (C1 y). specialize (C2 y). rewrite !cnt_app in *. rewrite C1, (cids_split 0 n1 n2), cnt_app by lia. lia.
    - apply nodup_app_inv in Nd as [_ [Nd _]]. exact Nd.
    - apply nnl_app1; assumption.
    - intros y I. destruct (tparams (wargs p) y) as [t|] eqn:E; [|reflexivity]. exfalso. apply nodup_app_inv in Nd as [_ [_ Nd]]. apply (Nd y); [|exact I]. destruct (tparams_dom (wargs p) (fun _ => None) y) as [X|X]; [unfold tparams in E; rewrite E; discriminate|contradiction X; reflexivity|exact X].
    - exact NS. }
  destruct (body_styped _ _ _ T1 NS N1 Sw _ _ _ E1 _ (xtn_refl _) (cfree_nn _ 0 NS)) as [S2 [W1 [W2 W3]]]. destruct (proj1 redefine_ok _ _ _ T2 NS' N2 _ _ _ _ E2) as [_ [Ty _]]. destruct (Ty S2 W2 W3) as [S3 [W4 [W5 [W6 W7]]]].
  pose proof (wstys_app _ _ _ _ _ W1 (wstys_WS _ _ _ W4)) as W8. assert (F8 : wflat_stmts (l ++ map WS b) = Some (zl ++ zb)) by (clear - F1 F2; revert zl F1; induction l as [|s l IH]; intros zl F1; [injection F1 as <-; cbn [app]; rewrite wflat_WS; exact F2|]; cbn [app wflat_stmts] in *; destruct (wflat_stmt s) as [za|]; [|discriminate F1]; destruct (wflat_stmts l) as [zc|]; [|discriminate F1]; injection F1 as <-; rewrite (IH zc eq_refl), app_assoc; reflexivity).
  assert (D8 : wdefss (l ++ map WS b) = wdefss l ++ sdefss b) by (rewrite wdefss_app, wdefss_WS; reflexivity). rewrite <- D8 in Fr.
  assert (Dm : forall x, S3 x <> None -> vis (tparams (wargs p)) (wdefss (l ++ map WS b)) x).
  { clear - W8. revert W8. generalize (tparams (wargs p)). generalize (l ++ map WS b). induction l0 as [|s r IH]; intros S T x X; inversion T as [|? S1 ? ? ? Ta Tb]; subst; [left; exact X|]. rewrite wdefss_cons. destruct (IH _ Tb x X) as [Y|Y]; [destruct (dom_wsty _ _ _ Ta x Y) as [Z|Z]; [left; exact Z|right; apply in_or_app; left; exact Z]|right; apply in_or_app; right; exact Y]. }
  destruct (fresh_app _ _ _ Fr) as [Fr1 _]. pose proof (fresh_next _ _ _ _ Fr Dm) as Fr2.
  apply (closed_body (tparams (wargs p)) S3 p1 _ (zl ++ zb) sr zs e' (wretty p) (prim_count (wretty p)) (inv_params (wargs p)) W7 F3 Fr2); [|exact P].
  intros C D Cx l1 Lc I Q. refine (wflat_closed _ _ _ W8 _ _ C D Cx l1 F8 Fr1 Lc I Q). apply Forall_app. split; [exact (body_steady _ _ _ T1 NS N1 Sw _ _ _ E1)|apply steady_WS].
Qed.
End ClosedW.
