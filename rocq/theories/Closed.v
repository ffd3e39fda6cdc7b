(** Constant propagation of a flattened program leaves no read of a variable that is not defined: the check [closed_prog] is
    always met by the output of flatten_complex_types.rs followed by zir propagation.rs. *)
From Coq Require Import String Ascii.
From Coq Require Import ZArith NArith List Bool Lia.
From Verif Require Import PField Interp Bits Zir CgProg CgWf CgEnd UintOpt Panic DeadCode ZProp ZPropVars ZPropStmt ZPropType Source Str Abi Typed Flatten FlattenOps FlattenSim FlattenRun FlattenTy FlattenShape FlattenEnd.
Import ListNotations.
Open Scope Z_scope.

Section Closed.
Context {PF : PrimeField}.
(** ** Predicates on expressions kept by every operator *)
Record kept (R : zexp -> Prop) : Prop := mkKept {
  k_f : forall c, R (ZFVal c); k_b : forall b, R (ZBVal b); k_u : forall a n, R (ZUVal a n);
  k_fbin : forall o l r, R l -> R r -> R (ZFBin o l r); k_pow : forall e n, R e -> R (ZPow e n);
  k_cmp : forall o l r, R l -> R r -> R (ZCmp o l r); k_bbin : forall o l r, R l -> R r -> R (ZBBin o l r); k_not : forall e, R e -> R (ZBNot e);
  k_ubin : forall a o l r, R l -> R r -> R (ZUBin a o l r); k_unot : forall a e, R e -> R (ZUNot a e); k_shl : forall a e k, R e -> R (ZShl a e k); k_shr : forall a e k, R e -> R (ZShr a e k);
  k_sel : forall k es i, Forall R es -> R i -> R (ZSel k es i) }.
Lemma all_sub : forall (R : zexp -> Prop) (a b : list zexp), incl a b -> Forall R b -> Forall R a.
Proof. intros R a b H F. rewrite Forall_forall in *. intros x I. apply F, H, I. Qed.
Lemma firstn_incl : forall A n (l : list A), incl (firstn n l) l.
Proof. intros A n l x I. rewrite <- (firstn_skipn n l). apply in_or_app. left. exact I. Qed.
Lemma skipn_incl : forall A n (l : list A), incl (skipn n l) l.
Proof. intros A n l x I. rewrite <- (firstn_skipn n l). apply in_or_app. right. exact I. Qed.
Lemma slice_incl : forall zs i j r, zslice zs i j = Some r -> incl r zs.
Proof. intros zs i j r E. apply zslice_ok in E as [_ ->]. intros x I. apply firstn_incl in I. exact (skipn_incl _ _ _ _ I). Qed.
Lemma kept_conj : forall R, kept R -> forall f v w z, conj_tree f v w = Some z -> Forall R v -> Forall R w -> R z.
Proof.
  intros R K. assert (Q : forall a b z, zeq a b = Some z -> R a -> R b -> R z) by (intros a b z E A B; unfold zeq in E; destruct (zkind a), (zkind b); try discriminate E; injection E as <-; [apply (k_cmp R K)|apply (k_bbin R K)|apply (k_cmp R K)]; assumption).
  assert (G : forall f v w z n, (forall v w z, conj_tree f v w = Some z -> Forall R v -> Forall R w -> R z) -> Forall R v -> Forall R w ->
    match conj_tree f (firstn n v) (firstn n w), conj_tree f (skipn n v) (skipn n w) with Some a, Some b => Some (ZBBin BAnd a b) | _, _ => None end = Some z -> R z).
  { intros f v w z n IH Hv Hw H. destruct (conj_tree f (firstn n v) (firstn n w)) as [z1|] eqn:E1; [|discriminate H]. destruct (conj_tree f (skipn n v) (skipn n w)) as [z2|] eqn:E2; [|discriminate H]. injection H as <-.
    apply (k_bbin R K); [apply (IH _ _ _ E1)|apply (IH _ _ _ E2)]; [apply (all_sub R _ v)|apply (all_sub R _ w)|apply (all_sub R _ v)|apply (all_sub R _ w)]; try assumption; first [apply firstn_incl|apply skipn_incl]. }
  induction f as [|f IH]; intros v w z H Hv Hw.
  - destruct v as [|a [|a' v]], w as [|b [|b' w]]; cbn [conj_tree] in H; try (destruct (length _ =? length _)%nat in H; discriminate H); [injection H as <-; apply (k_b R K)|]. exact (Q _ _ _ H (Forall_inv Hv) (Forall_inv Hw)).
  - destruct v as [|a [|a' v]], w as [|b [|b' w]]; cbn [conj_tree] in H; try (destruct (length _ =? length _)%nat in H; [|discriminate H]; eapply (G f _ _ _ _ IH Hv Hw); exact H); [injection H as <-; apply (k_b R K)|]. exact (Q _ _ _ H (Forall_inv Hv) (Forall_inv Hw)).
Qed.
Lemma chunks_all : forall (R : zexp -> Prop) k fuel zs, Forall R zs -> Forall (Forall R) (zchunks fuel k zs).
Proof. intros R k fuel. induction fuel as [|f IH]; intros zs H; cbn [zchunks]; [constructor|]. destruct zs as [|z zs]; [constructor|]. constructor; [|apply IH]; eapply all_sub; try exact H; [apply firstn_incl|apply skipn_incl]. Qed.
Lemma transpose_all : forall (R : zexp -> Prop) size cs, Forall (Forall R) cs -> Forall (Forall R) (transpose size cs).
Proof.
  intros R size cs H. unfold transpose. assert (B : Forall (Forall R) (repeat [] size)) by (induction size; constructor; [constructor|assumption]). revert H B. generalize (@repeat (list zexp) [] size). induction cs as [|c cs IH]; intros acc H B; [exact B|]. cbn [fold_left]. inversion H as [|? ? H1 H2]; subst. apply IH; [exact H2|].
  apply Forall_forall. intros q Q. apply in_map_iff in Q as [[a z] [<- Q]]. cbn [fst snd]. pose proof (in_combine_l _ _ _ _ Q) as Qa. pose proof (in_combine_r _ _ _ _ Q) as Qz. rewrite Forall_forall in B, H1. apply Forall_app. split; [exact (B a Qa)|]. constructor; [exact (H1 z Qz)|constructor].
Qed.
Lemma kept_zsel : forall R, kept R -> forall size zs i r, zsel size zs i = Some r -> Forall R zs -> R i -> Forall R r.
Proof.
  intros R K size zs i r H A I.
  assert (G : match size with O => None | _ => mapO (zselect i) (transpose size (zchunks (length zs) size zs)) end = Some r -> Forall R r).
  { clear H. intros H. destruct size as [|n]; [discriminate H|]. apply mapO_inv in H. pose proof (transpose_all R (S n) _ (chunks_all R (S n) (length zs) zs A)) as T. revert T. induction H as [|c z cs r E _ IH]; intros T; [constructor|]. inversion T as [|? ? T1 T2]; subst. constructor; [|apply IH; exact T2].
    destruct c as [|z0 col]; [discriminate E|]. unfold zselect in E. destruct (forallb _ (z0 :: col)); [|discriminate E]. injection E as <-. apply (k_sel R K); assumption. }
  destruct i; try exact (G H). exact (all_sub R _ _ (slice_incl _ _ _ _ H) A).
Qed.
Lemma kept_comb : forall R, kept R -> forall op zss zs, comb op zss = Some zs -> Forall (Forall R) zss -> Forall R zs.
Proof.
  intros R K op zss zs H A. assert (Pop : forall a x, popE a = Some x -> Forall R a -> R x) by (intros a x E B; rewrite Forall_forall in B; exact (B x (pop_in _ _ E))).
  assert (One : forall z, R z -> Forall R [z]) by (intros z Z; constructor; [exact Z|constructor]).
  assert (O1 : forall f, (forall e, R e -> R (f e)) -> zop1 f zss = Some zs -> Forall R zs).
  { intros f Hf E. unfold zop1 in E. destruct zss as [|a [|]]; try discriminate E. destruct (popE a) as [x|] eqn:Ep; [|discriminate E]. injection E as <-. apply One, Hf, (Pop a); [exact Ep|exact (Forall_inv A)]. }
  assert (O2 : forall f, (forall e g, R e -> R g -> R (f e g)) -> zop2 f zss = Some zs -> Forall R zs).
  { intros f Hf E. unfold zop2 in E. destruct zss as [|a [|b [|]]]; try discriminate E. destruct (popE a) as [x|] eqn:Ep; [|discriminate E]. destruct (popE b) as [y|] eqn:Eq; [|discriminate E]. injection E as <-. apply One, Hf; [apply (Pop a); [exact Ep|exact (Forall_inv A)]|apply (Pop b); [exact Eq|exact (Forall_inv (Forall_inv_tail A))]]. }
  assert (Oc : Forall R (concat zss)) by (clear - A; induction A as [|a l B _ IH]; [constructor|]; cbn [concat]; apply Forall_app; split; assumption).
  destruct K as [K1 K2 K3 K4 K5 K6 K7 K8 K9 K10 K11 K12 K13]. pose proof (mkKept R K1 K2 K3 K4 K5 K6 K7 K8 K9 K10 K11 K12 K13) as K.
  destruct op; cbn [comb] in H; try (injection H as <-; exact Oc); try (refine (O1 _ _ H); intros; auto; fail); try (refine (O2 _ _ H); intros; auto; fail); try (destruct zss; [injection H as <-; apply One; auto|discriminate H]).
  - destruct zss as [|a [|b [|]]]; try discriminate H. destruct (conj_tree (length a) a b) as [z|] eqn:E; [|discriminate H]. injection H as <-. apply One. exact (kept_conj R K _ _ _ _ E (Forall_inv A) (Forall_inv (Forall_inv_tail A))).
  - destruct zss as [|a [|b [|]]]; try discriminate H. destruct (popE b) as [i|] eqn:E; [|discriminate H]. exact (kept_zsel R K _ _ _ _ H (Forall_inv A) (Pop b i E (Forall_inv (Forall_inv_tail A)))).
  - destruct zss as [|a [|]]; try discriminate H. destruct (moffset m ms) as [[o n]|]; [|discriminate H]. exact (all_sub R _ _ (slice_incl _ _ _ _ H) (Forall_inv A)).
  - destruct zss as [|a [|]]; try discriminate H. destruct (nth_error ts k) as [u|]; [|discriminate H]. exact (all_sub R _ _ (slice_incl _ _ _ _ H) (Forall_inv A)).
  - destruct (length (concat zss) =? n * prim_count ty)%nat; [|discriminate H]. injection H as <-. exact Oc.
  - destruct zss as [|a [|]]; try discriminate H. exact (all_sub R _ _ (slice_incl _ _ _ _ H) (Forall_inv A)).
  - destruct zss as [|a [|]]; try discriminate H. injection H as <-. pose proof (Forall_inv A) as B. clear - B. match goal with |- Forall R (concat (repeat _ ?k)) => induction k as [|k IH] end; [constructor|]. cbn [repeat concat]. apply Forall_app. split; [exact B|exact IH].
Qed.

(** ** What is read after propagation with the constants C *)
Definition rd (C : cenv) (D : list ident) (z : zexp) : Prop := forall z', prop C z = Some z' -> incl (evars z') D.
Lemma two : forall (A B D : list ident), incl A D -> incl B D -> incl (A ++ B) D.
Proof. intros A B D H1 H2 x I. apply in_app_or in I as [I|I]; auto. Qed.
Lemma mapO_rd : forall C D es es', mapO (prop C) es = Some es' -> Forall (rd C D) es -> incl (evarss es') D.
Proof.
  intros C D es es' H F. apply mapO_inv in H. induction H as [|e e' r r' E _ IH]; [intros x []|]. inversion F as [|? ? F1 F2]; subst. unfold evarss. cbn [flat_map]. apply two; [exact (F1 e' E)|exact (IH F2)].
Qed.
Lemma rd_kept : forall C D, kept (rd C D).
Proof.
  intros C D. assert (N : incl (@nil ident) D) by (intros x []).
  constructor; try (intros; intros z' E; cbn [prop] in E; injection E as <-; exact N).
  - intros o l r A B z' E. cbn [prop obind] in E. destruct (prop C l) as [l'|] eqn:El; [|discriminate E]. cbn [obind] in E. destruct (prop C r) as [r'|] eqn:Er; [|discriminate E]. cbn [obind] in E. eapply incl_tran; [exact (pfbin_vars _ _ _ _ E)|]. apply two; [exact (A l' El)|exact (B r' Er)].
  - intros e n A z' E. cbn [prop obind] in E. destruct (prop C e) as [e'|] eqn:Ee; [|discriminate E]. cbn [obind] in E. assert (Q : incl (evars z') (evars e')) by (unfold ppow in E; destruct (N.eqb n 0); [injection E as <-; intros q []|]; destruct (N.eqb n 1); [injection E as <-; apply incl_refl|]; destruct e'; injection E as <-; try (intros q []; fail); apply incl_refl). eapply incl_tran; [exact Q|exact (A e' Ee)].
  - intros o l r A B z' E. cbn [prop obind] in E. destruct (prop C l) as [l'|] eqn:El; [|discriminate E]. cbn [obind] in E. destruct (prop C r) as [r'|] eqn:Er; [|discriminate E]. cbn [obind] in E. eapply incl_tran; [exact (pcmp_vars _ _ _ _ E)|]. apply two; [exact (A l' El)|exact (B r' Er)].
  - intros o l r A B z' E. cbn [prop obind] in E. destruct (prop C l) as [l'|] eqn:El; [|discriminate E]. cbn [obind] in E. destruct (prop C r) as [r'|] eqn:Er; [|discriminate E]. cbn [obind] in E. eapply incl_tran; [exact (pbbin_vars _ _ _ _ E)|]. apply two; [exact (A l' El)|exact (B r' Er)].
  - intros e A z' E. cbn [prop obind] in E. destruct (prop C e) as [e'|] eqn:Ee; [|discriminate E]. cbn [obind] in E. assert (Q : incl (evars z') (evars e')) by (unfold pbnot in E; destruct e'; injection E as <-; try (intros q []; fail); apply incl_refl). eapply incl_tran; [exact Q|exact (A e' Ee)].
  - intros a o l r A B z' E. cbn [prop obind] in E. destruct (prop C l) as [l'|] eqn:El; [|discriminate E]. cbn [obind] in E. destruct (prop C r) as [r'|] eqn:Er; [|discriminate E]. cbn [obind] in E. eapply incl_tran; [exact (pubin_vars _ _ _ _ _ E)|]. apply two; [exact (A l' El)|exact (B r' Er)].
  - intros a e A z' E. cbn [prop obind] in E. destruct (prop C e) as [e'|] eqn:Ee; [|discriminate E]. cbn [obind] in E. assert (Q : incl (evars z') (evars e')) by (unfold punot in E; destruct e'; injection E as <-; try (intros q []; fail); apply incl_refl). eapply incl_tran; [exact Q|exact (A e' Ee)].
  - intros a e k A z' E. cbn [prop obind] in E. destruct (prop C e) as [e'|] eqn:Ee; [|discriminate E]. cbn [obind] in E. eapply incl_tran; [exact (pshl_vars _ _ _ _ E)|exact (A e' Ee)].
  - intros a e k A z' E. cbn [prop obind] in E. destruct (prop C e) as [e'|] eqn:Ee; [|discriminate E]. cbn [obind] in E. eapply incl_tran; [exact (pshr_vars _ _ _ _ E)|exact (A e' Ee)].
  - intros k es i A B z' E. cbn [prop obind] in E. destruct (prop C i) as [i'|] eqn:Ei; [|discriminate E]. cbn [obind] in E. destruct (mapO (prop C) es) as [es'|] eqn:Es; [|discriminate E]. cbn [obind] in E. pose proof (mapO_rd _ _ _ _ Es A) as M.
    assert (G : Some (ZSel k es' i') = Some z' -> incl (evars z') D) by (intros X; injection X as <-; rewrite sel_evars; apply two; [exact M|exact (B i' Ei)]).
    unfold psel in E. destruct i'; try exact (G E). apply nth_error_In in E. intros x X. apply M. unfold evarss. apply in_flat_map. exists z'. split; assumption.
Qed.
(** a variable that is known or defined *)
Definition okv (C : cenv) (D : list ident) (x : ident) : Prop := C x <> None \/ In x D.
Lemma rd_id : forall C D k x, cst_lit C -> okv C D x -> rd C D (ZId k x).
Proof.
  intros C D k x L O z' E. cbn [prop] in E. destruct (C x) as [c|] eqn:Ec; injection E as <-; [rewrite (lit_novars _ (L x _ Ec)); intros q []|]. intros y [<-|[]]. destruct O as [O|O]; [contradiction|exact O].
Qed.
Lemma rd_vars : forall C D z, cst_lit C -> (forall x, In x (evars z) -> okv C D x) -> rd C D z.
Proof. intros C D z L H z' E y Y. apply (prop_unk _ _ _ L E) in Y. apply unk_in in Y as [Y N]. destruct (H y Y) as [O|O]; [contradiction|exact O]. Qed.
Lemma prop_ext : forall z C1 C2, (forall x, In x (evars z) -> C2 x = C1 x) -> prop C2 z = prop C1 z.
Proof.
  intros z. induction z using zexp_ind'; intros C1 C2 Hx; try reflexivity; cbn [evars] in Hx; cbn [prop];
    try (rewrite (IHz1 C1 C2), (IHz2 C1 C2); [reflexivity|intros q X; apply Hx; rewrite ?in_app_iff; tauto|intros q X; apply Hx; rewrite ?in_app_iff; tauto]; fail);
    try (rewrite (IHz C1 C2); [reflexivity|exact Hx]; fail).
  - rewrite Hx by (left; reflexivity). reflexivity.
  - rewrite (IHz1 C1 C2), (IHz2 C1 C2), (IHz3 C1 C2); [reflexivity|intros q X; apply Hx; rewrite ?in_app_iff; tauto|intros q X; apply Hx; rewrite ?in_app_iff; tauto|intros q X; apply Hx; rewrite ?in_app_iff; tauto].
  - rewrite evars_go in Hx. rewrite (IHz C1 C2) by (intros q X; apply Hx, in_or_app; right; exact X). assert (M : mapO (prop C2) es = mapO (prop C1) es); [|rewrite M; reflexivity].
    assert (Hs : forall q, In q (evarss es) -> C2 q = C1 q) by (intros q X; apply Hx, in_or_app; left; exact X). clear - H Hs. induction H as [|e r He _ IH]; [reflexivity|]. cbn [mapO]. unfold evarss in Hs. cbn [flat_map] in Hs. rewrite (He C1 C2) by (intros q X; apply Hs, in_or_app; left; exact X). rewrite IH by (intros q X; apply Hs, in_or_app; right; exact X). reflexivity.
Qed.
Lemma rd_ext : forall C1 C2 D1 D2 z, (forall x, In x (evars z) -> C2 x = C1 x) -> incl D1 D2 -> rd C1 D1 z -> rd C2 D2 z.
Proof. intros C1 C2 D1 D2 z H I R z' E. rewrite (prop_ext z C1 C2 H) in E. exact (incl_tran (R z' E) I). Qed.
Lemma zconds_rd : forall C D c xs ys zs, zconds c xs ys = Some zs -> rd C D c ->
  (forall c', prop C c = Some c' -> isb (bconst c') false = false -> Forall (rd C D) xs) -> (forall c', prop C c = Some c' -> isb (bconst c') true = false -> Forall (rd C D) ys) -> Forall (rd C D) zs.
Proof.
  intros C D c. assert (One : forall x y z, zcond c x y = Some z -> rd C D c -> (forall c', prop C c = Some c' -> isb (bconst c') false = false -> rd C D x) -> (forall c', prop C c = Some c' -> isb (bconst c') true = false -> rd C D y) -> rd C D z).
  { intros x y z E Rc Rx Ry z' P. assert (Q : exists k, z = ZCond k c x y) by (unfold zcond in E; destruct (zkind x), (zkind y); try discriminate E; injection E as <-; eexists; reflexivity). destruct Q as [k ->]. cbn [prop] in P. destruct (prop C c) as [c'|] eqn:Ec; [|discriminate P]. cbn [obind] in P.
    specialize (Rx c' eq_refl). specialize (Ry c' eq_refl). specialize (Rc c' Ec). destruct (isb (bconst c') true) eqn:Tt.
    - apply Rx; [|exact P]. unfold isb in *. destruct (bconst c') as [[|]|]; [reflexivity|discriminate Tt|discriminate Tt].
    - destruct (isb (bconst c') false) eqn:Tf; [exact (Ry eq_refl z' P)|]. destruct (prop C x) as [x'|] eqn:Ex; [|discriminate P]. destruct (prop C y) as [y'|] eqn:Ey; [|discriminate P]. cbn [obind] in P. injection P as <-. destruct (zexp_eqb x' y'); [exact (Rx eq_refl x' Ex)|]. cbn [evars]. apply two; [exact Rc|]. apply two; [exact (Rx eq_refl x' Ex)|exact (Ry eq_refl y' Ey)]. }
  induction xs as [|x xs IH]; intros ys zs H Rc Rx Ry; destruct ys as [|y ys]; try discriminate H; [injection H as <-; constructor|]. cbn [zconds] in H. destruct (zcond c x y) as [z|] eqn:E; [|discriminate H]. destruct (zconds c xs ys) as [l|] eqn:El; [|discriminate H]. injection H as <-.
  constructor; [apply (One x y z E Rc)|apply (IH ys l El Rc)]; intros c' E1 E2; first [exact (Forall_inv (Rx c' E1 E2))|exact (Forall_inv (Ry c' E1 E2))|exact (Forall_inv_tail (Rx c' E1 E2))|exact (Forall_inv_tail (Ry c' E1 E2))].
Qed.

(** ** Statements *)
Definition moves (C C1 : cenv) (ds ds1 : list ident) : Prop := (forall x, ~ In x ds -> C1 x = C x) /\ forall D x, okv C D x -> okv C1 (ds1 ++ D) x.
Lemma moves_refl : forall C ds, moves C C ds [].
Proof. intros C ds. split; auto. Qed.
Lemma moves_trans : forall C C1 C2 a b a1 b1, moves C C1 a a1 -> moves C1 C2 b b1 -> moves C C2 (a ++ b) (a1 ++ b1).
Proof.
  intros C C1 C2 a b a1 b1 [A1 A2] [B1 B2]. split; [intros x N; rewrite B1 by (intros X; apply N, in_or_app; right; exact X); apply A1; intros X; apply N, in_or_app; left; exact X|]. intros D x O. apply (A2 D) in O. apply (B2 (a1 ++ D)) in O. destruct O as [O|O]; [left; exact O|right]. rewrite !in_app_iff in *. tauto.
Qed.
Lemma moves_sub : forall C C1 a b a1, incl a b -> moves C C1 a a1 -> moves C C1 b a1.
Proof. intros C C1 a b a1 H [A B]. split; [intros x N; apply A; intros X; apply N, H, X|exact B]. Qed.
Lemma prop_moves_of : forall l, Forall (fun s => forall C C1 l1, prop_stmt C s = Some (C1, l1) -> moves C C1 (defs s) (defss l1)) l -> forall C C1 l1, prop_stmts C l = Some (C1, l1) -> moves C C1 (defss l) (defss l1).
Proof.
  induction 1 as [|s r Hs _ IH]; intros C C1 l1 H; cbn [prop_stmts] in H; [injection H as <- <-; apply moves_refl|]. destruct (prop_stmt C s) as [[Ca la]|] eqn:E; [|discriminate H]. cbn [obind fst snd] in H. destruct (prop_stmts Ca r) as [[Cb lb]|] eqn:Er; [|discriminate H]. cbn [obind fst snd] in H. injection H as <- <-.
  rewrite defss_app. unfold defss at 1. cbn [flat_map]. apply (moves_trans _ Ca); [exact (Hs _ _ _ E)|exact (IH _ _ _ Er)].
Qed.
Lemma prop_moves1 : forall s C C1 l1, prop_stmt C s = Some (C1, l1) -> moves C C1 (defs s) (defss l1).
Proof.
  intros s. induction s using zstmt_ind'; intros C C1 l1 E.
  - cbn [prop_stmt] in E. destruct (mapO (prop C) es) as [es'|]; [|discriminate E]. cbn [obind] in E. injection E as <- <-. apply moves_refl.
  - cbn [prop_stmt] in E. destruct (prop C e) as [e'|]; [|discriminate E]. cbn [obind] in E. destruct (is_const e') eqn:K; injection E as <- <-; (split; [intros y N; unfold cadd, cdel; destruct (Z.eqb_spec y x) as [->|Nx]; [exfalso; apply N; left; reflexivity|reflexivity]|]).
    + intros D y O. unfold okv, cadd in *. destruct (y =? x); [left; discriminate|exact O].
    + intros D y O. unfold okv, cdel in *. destruct (Z.eqb_spec y x) as [->|Nx]; [right; left; reflexivity|]. destruct O as [O|O]; [left; exact O|right; right; exact O].
  - rewrite prop_if in E. destruct (prop C c) as [c'|]; [|discriminate E]. cbn [obind] in E. pose proof (prop_moves_of _ H) as Ha. pose proof (prop_moves_of _ H0) as Hb. change (defs (ZIf c a b)) with (defss a ++ defss b).
    destruct (isb (bconst c') true); [apply (moves_sub _ _ (defss a)); [apply incl_appl, incl_refl|exact (Ha _ _ _ E)]|]. destruct (isb (bconst c') false); [apply (moves_sub _ _ (defss b)); [apply incl_appr, incl_refl|exact (Hb _ _ _ E)]|].
    destruct (prop_stmts C a) as [[Ca la]|] eqn:Ea; [|discriminate E]. cbn [obind fst snd] in E. destruct (prop_stmts Ca b) as [[Cb lb]|] eqn:Eb; [|discriminate E]. cbn [obind fst snd] in E. injection E as <- <-. unfold defss at 3. cbn [flat_map defs]. rewrite app_nil_r. change (moves C Cb (defss a ++ defss b) (defss la ++ defss lb)). apply (moves_trans _ Ca); [exact (Ha _ _ _ Ea)|exact (Hb _ _ _ Eb)].
  - cbn [prop_stmt] in E. destruct (prop C e) as [e'|]; [|discriminate E]. cbn [obind] in E. destruct (isb (bconst e') true); [injection E as <- <-; apply moves_refl|]. destruct (isb (bconst e') false); [discriminate E|]. injection E as <- <-. apply moves_refl.
  - cbn [prop_stmt] in E. destruct (mapO (prop (cdels C xs)) es) as [es'|]; [|discriminate E]. cbn [obind] in E. injection E as <- <-. split; [intros y N; apply cdels_out; exact N|]. intros D y O. unfold defss. cbn [flat_map defs]. rewrite app_nil_r. destruct (in_dec Z.eq_dec y xs) as [I|I]; [right; apply in_or_app; left; exact I|]. destruct O as [O|O]; [left; rewrite cdels_out by exact I; exact O|right; apply in_or_app; right; exact O].
  - cbn [prop_stmt] in E. destruct (mapO (prop C) es) as [es'|]; [|discriminate E]. cbn [obind] in E. injection E as <- <-. apply moves_refl.
Qed.
Lemma prop_moves : forall l C C1 l1, prop_stmts C l = Some (C1, l1) -> moves C C1 (defss l) (defss l1).
Proof. intros l. apply prop_moves_of. apply Forall_forall. intros s _. apply prop_moves1. Qed.
Lemma prop_lit : forall l C C1 l1, cst_lit C -> prop_stmts C l = Some (C1, l1) -> cst_lit C1.
Proof. intros l C C1 l1 L E. exact (proj1 (shape_stmts l C C1 l1 L E)). Qed.
Lemma roks_app : forall a b D, reads_oks D a = true -> reads_oks (defss a ++ D) b = true -> reads_oks D (a ++ b) = true.
Proof.
  induction a as [|s r IH]; intros b D H1 H2; [exact H2|]. cbn [app reads_oks] in *. apply andb_prop in H1 as [H1 H3]. rewrite H1. cbn [andb]. apply IH; [exact H3|]. revert H2. apply reads_oks_mono. unfold defss. cbn [flat_map]. intros x X. rewrite !in_app_iff in *. tauto.
Qed.

(** ** Flattened expressions and statements *)
Definition inv (S : tctx) (C : cenv) (D : list ident) : Prop := forall x t s l, S x = Some t -> In (s, l) (flat_ids (SBase x) t) -> okv C D (name s).
Lemma inv_moves : forall S C C1 D ds ds1, moves C C1 ds ds1 -> inv S C D -> inv S C1 (ds1 ++ D).
Proof. intros S C C1 D ds ds1 [_ M] H x t s l E I. apply M. exact (H x t s l E I). Qed.
Lemma later_rd : forall S A E zs C1 C2 D1 D2 b l2, reads (of_vars (vis S A)) zs -> (forall x, In x (defss b) -> of_vars (fun y => In y E) x) -> fresh S E -> (forall x, In x A -> ~ In x E) ->
  prop_stmts C1 b = Some (C2, l2) -> incl D1 D2 -> Forall (rd C1 D1) zs -> Forall (rd C2 D2) zs.
Proof.
  intros S A E zs C1 C2 D1 D2 b l2 R Db Fr Di P I F. destruct (prop_moves _ _ _ _ P) as [M _]. unfold reads in R. rewrite Forall_forall in *. intros z Z. apply (rd_ext C1 C2 D1 D2 z); [|exact I|exact (F z Z)].
  intros x X. apply M. intros Y. destruct (of_vars_inj _ _ _ (R z Z x X) (Db x Y)) as [y [[V|V] W]]; [apply V; exact (proj2 Fr y W)|exact (Di y V W)].
Qed.
Definition cl_e (S : tctx) (e : texp) (t : cty) : Prop := forall ss zs C D C1 l1, tflat e = Some (ss, zs) -> fresh S (tdefs e) -> cst_lit C -> inv S C D -> prop_stmts C ss = Some (C1, l1) -> reads_oks D l1 = true /\ Forall (rd C1 (defss l1 ++ D)) zs.
Definition cl_es (S : tctx) (es : list texp) (ts : list cty) : Prop := forall ss zss C D C1 l1, tflats es = Some (ss, zss) -> fresh S (tdefss es) -> cst_lit C -> inv S C D -> prop_stmts C ss = Some (C1, l1) -> reads_oks D l1 = true /\ Forall (Forall (rd C1 (defss l1 ++ D))) zss.
Definition cl_s (S : tctx) (s : tstmt) (S1 : tctx) : Prop := forall ss C D C1 l1, tflat_stmt s = Some ss -> fresh S (sdefs s) -> cst_lit C -> inv S C D -> prop_stmts C ss = Some (C1, l1) -> reads_oks D l1 = true /\ inv S1 C1 (defss l1 ++ D).
Definition cl_ss (S : tctx) (ss : list tstmt) (S1 : tctx) : Prop := forall zs C D C1 l1, tflat_stmts ss = Some zs -> fresh S (sdefss ss) -> cst_lit C -> inv S C D -> prop_stmts C zs = Some (C1, l1) -> reads_oks D l1 = true /\ inv S1 C1 (defss l1 ++ D).
Lemma inv_incl : forall S C D D1, incl D D1 -> inv S C D -> inv S C D1.
Proof. intros S C D D1 H I x t s l E X. destruct (I x t s l E X) as [O|O]; [left; exact O|right; exact (H _ O)]. Qed.
Lemma app3 : forall (a b D : list ident), incl (b ++ a ++ D) ((a ++ b) ++ D).
Proof. intros a b D x X. rewrite !in_app_iff in *. tauto. Qed.
(** a definition of every component *)
Lemma zip_closed : forall ids zs C D C1 l1 (P : ident -> Prop), (forall p, In p ids -> ~ P (name (fst p))) -> reads P zs -> length ids = length zs -> cst_lit C -> Forall (rd C D) zs -> prop_stmts C (defs_zip ids zs) = Some (C1, l1) ->
  reads_oks D l1 = true /\ forall p, In p ids -> okv C1 (defss l1 ++ D) (name (fst p)).
Proof.
  induction ids as [|p ids IH]; intros [|z zs] C D C1 l1 P Hp R L Lc F E; try discriminate L; [injection E as <- <-; split; [reflexivity|intros p []]|].
  cbn [defs_zip combine map prop_stmts prop_stmt fst snd] in E. destruct (prop C z) as [z'|] eqn:Ez; [|discriminate E]. cbn [obind] in E. inversion F as [|? ? F1 F2]; subst. inversion R as [|? ? R1 R2]; subst. injection L as L.
  set (x := name (fst p)) in *. assert (Sx : forall C' : cenv, (forall y, y <> x -> C' y = C y) -> forall D', incl D D' -> Forall (rd C' D') zs).
  { intros C' H D' I. unfold reads in R2. rewrite Forall_forall in F2, R2 |- *. intros q Q. apply (rd_ext C C' D D' q); [|exact I|exact (F2 q Q)]. intros y Y. apply H. intros ->. apply (Hp p (or_introl eq_refl)). exact (R2 q Q x Y). }
  assert (Hp' : forall q, In q ids -> ~ P (name (fst q))) by (intros q Q; apply Hp; right; exact Q). destruct (is_const z') eqn:K; cbn [fst snd] in E.
  - fold (defs_zip ids zs) in E. destruct (prop_stmts (cadd C x z') (defs_zip ids zs)) as [[C2 l2]|] eqn:E2; [|discriminate E]. cbn [obind fst snd app] in E. injection E as <- <-.
    assert (Lc' : cst_lit (cadd C x z')) by (intros y c; unfold cadd; destruct (y =? x); [intros X; injection X as <-; exact K|apply Lc]).
    destruct (IH zs (cadd C x z') D C2 l2 P Hp' R2 L Lc') as [A B]; [apply Sx; [intros y Y; unfold cadd; destruct (Z.eqb_spec y x); [contradiction|reflexivity]|apply incl_refl]|exact E2|]. split; [exact A|]. intros q [<-|Q]; [|exact (B q Q)]. fold x. apply (proj2 (prop_moves _ _ _ _ E2)). left. unfold cadd. rewrite Z.eqb_refl. discriminate.
  - fold (defs_zip ids zs) in E. destruct (prop_stmts (cdel C x) (defs_zip ids zs)) as [[C2 l2]|] eqn:E2; [|discriminate E]. cbn [obind fst snd app] in E. injection E as <- <-.
    assert (Lc' : cst_lit (cdel C x)) by (intros y c; unfold cdel; destruct (y =? x); [discriminate|apply Lc]).
    destruct (IH zs (cdel C x) (x :: D) C2 l2 P Hp' R2 L Lc') as [A B]; [apply Sx; [intros y Y; unfold cdel; destruct (Z.eqb_spec y x); [contradiction|reflexivity]|intros y Y; right; exact Y]|exact E2|].
    assert (Hi : incl (defss l2 ++ x :: D) (defss (ZDef x z' :: l2) ++ D)) by (unfold defss; cbn [flat_map defs app]; intros y Y; apply in_app_or in Y as [Y|[Y|Y]]; [right; apply in_or_app; left; exact Y|left; exact Y|right; apply in_or_app; right; exact Y]).
    split; [cbn [reads_oks reads_ok defs app]; rewrite A, andb_true_r; apply inclb_ok; exact (F1 z' Ez)|]. intros q [<-|Q]; [|destruct (B q Q) as [O|O]; [left; exact O|right; exact (Hi _ O)]]. fold x. right. unfold defss. cbn [flat_map defs app]. left. reflexivity.
Qed.
Lemma id_in : forall t x s l, In (s, l) (flat_ids (SBase x) t) -> base s = x.
Proof. intros t x s l I. exact (ids_base _ _ _ _ I). Qed.

Theorem flatten_closed : (forall S e t, tty S e t -> cl_e S e t) /\ (forall S es ts, ttys S es ts -> cl_es S es ts) /\ (forall S s S1, tsty S s S1 -> cl_s S s S1) /\ (forall S ss S1, tstys S ss S1 -> cl_ss S ss S1).
Proof.
  apply typed_ind.
  - intros S t x E ss zs C D C1 l1 H Fr Lc I P. cbn [tflat] in H. injection H as <- <-. injection P as <- <-. split; [reflexivity|]. apply Forall_forall. intros z Z. apply in_map_iff in Z as [[s l] [<- Z]]. cbn [fst snd]. apply rd_id; [exact Lc|]. exact (I x t s l E Z).
  - intros S op args ts t _ IH O ss zs C D C1 l1 H Fr Lc I P. cbn [tflat] in H. destruct (flat_list tflat args) as [[sa zss]|] eqn:E; [|discriminate H]. destruct (comb op zss) as [zs'|] eqn:Ec; [|discriminate H]. injection H as <- <-. destruct (IH sa zss C D C1 l1 E Fr Lc I P) as [A B]. split; [exact A|]. exact (kept_comb _ (rd_kept _ _) _ _ _ Ec B).
  - intros S c x y t Tc IHc Tx IHx Ty IHy ss zs C D C1 l1 H Fr Lc I P. cbn [tflat] in H. destruct (tflat c) as [[sc zc]|] eqn:Ec; [|discriminate H]. destruct (tflat x) as [[sx zx]|] eqn:Ex; [|discriminate H]. destruct (tflat y) as [[sy zy]|] eqn:Ey; [|discriminate H].
    destruct (popE zc) as [z|] eqn:Ep; [|discriminate H]. destruct (zconds z zx zy) as [zs'|] eqn:Ez; [|discriminate H]. injection H as <- <-. cbn [tdefs] in *. destruct (fresh_app _ _ _ Fr) as [Fc [Fxy Dc]]. destruct (fresh_app _ _ _ Fxy) as [Fx [Fy Dx]].
    apply prop_stmts_app in P as [Cc [lc [li [Pc [Pi ->]]]]]. destruct (IHc sc zc C D Cc lc Ec Fc Lc I Pc) as [Ac Bc]. pose proof (prop_lit _ _ _ _ Lc Pc) as Lcc. pose proof (inv_moves _ _ _ _ _ _ (prop_moves _ _ _ _ Pc) I) as Ic.
    destruct (proj1 flatten_shape _ _ _ Tc sc zc Ec Fc) as [Shc Rc]. destruct (proj1 flatten_shape _ _ _ Tx sx zx Ex Fx) as [Shx Rx]. destruct (proj1 flatten_shape _ _ _ Ty sy zy Ey Fy) as [Shy Ry].
    assert (Rz : rd Cc (defss lc ++ D) z) by (rewrite Forall_forall in Bc; exact (Bc z (pop_in _ _ Ep))). assert (Rz1 : reads (of_vars (vis S (tdefs c))) [z]) by (apply reads_one; exact (reads_pop _ _ _ Rc Ep)).
    set (Dc' := defss lc ++ D) in *.
    assert (Gx : forall C2 l2, prop_stmts Cc sx = Some (C2, l2) -> reads_oks Dc' l2 = true /\ Forall (rd C2 (defss l2 ++ Dc')) zx) by (intros C2 l2 Q; exact (IHx sx zx Cc Dc' C2 l2 Ex Fx Lcc Ic Q)).
    assert (Gy : forall C2 l2, prop_stmts Cc sy = Some (C2, l2) -> reads_oks Dc' l2 = true /\ Forall (rd C2 (defss l2 ++ Dc')) zy) by (intros C2 l2 Q; exact (IHy sy zy Cc Dc' C2 l2 Ey Fy Lcc Ic Q)).
    assert (Goal : prop_stmts Cc [ZIf z sx sy] = Some (C1, li) \/ (sx = [] /\ sy = [] /\ C1 = Cc /\ li = [])) by (destruct sx, sy; [right; injection Pi as <- <-; auto|left; exact Pi|left; exact Pi|left; exact Pi]). clear Pi.
    assert (Main : reads_oks Dc' li = true /\ Forall (rd C1 (defss li ++ Dc')) zs').
    { destruct Goal as [Pi|[-> [-> [-> ->]]]].
      2:{ split; [reflexivity|]. change (defss [] ++ Dc') with Dc'. destruct (Gx Cc [] eq_refl) as [_ Bx]. destruct (Gy Cc [] eq_refl) as [_ By]. apply (zconds_rd Cc Dc' z zx zy zs' Ez Rz); intros; assumption. }
      cbn [prop_stmts] in Pi. rewrite prop_if in Pi. destruct (prop Cc z) as [z'|] eqn:Eq; [|discriminate Pi]. cbn [obind] in Pi.
      destruct (isb (bconst z') true) eqn:Tt; [|destruct (isb (bconst z') false) eqn:Tf].
      - destruct (prop_stmts Cc sx) as [[C2 l2]|] eqn:Es; [|discriminate Pi]. cbn [obind fst snd] in Pi. rewrite app_nil_r in Pi. injection Pi as <- <-. destruct (Gx C2 l2 eq_refl) as [Ax Bx]. split; [exact Ax|].
        assert (Pz : prop C2 z = Some z').
        { rewrite <- Eq. apply prop_ext. intros q Q. apply (proj1 (prop_moves _ _ _ _ Es)). intros Q2. destruct (of_vars_inj _ _ _ (Forall_inv Rz1 q Q) (sh_defs _ _ _ Shx q Q2)) as [w [[V|V] W]]; [apply V; exact (proj2 Fx w W)|apply (Dc w V); apply in_or_app; left; exact W]. }
        apply (zconds_rd C2 _ z zx zy zs' Ez); [intros z2 E2; rewrite Pz in E2; injection E2 as <-; apply (incl_tran (Rz z' Eq)); apply incl_appr, incl_refl|intros; exact Bx|intros z2 E2 T2; rewrite Pz in E2; injection E2 as <-; congruence].
      - destruct (prop_stmts Cc sy) as [[C2 l2]|] eqn:Es; [|discriminate Pi]. cbn [obind fst snd] in Pi. rewrite app_nil_r in Pi. injection Pi as <- <-. destruct (Gy C2 l2 eq_refl) as [Ay By]. split; [exact Ay|].
        assert (Pz : prop C2 z = Some z').
        { rewrite <- Eq. apply prop_ext. intros q Q. apply (proj1 (prop_moves _ _ _ _ Es)). intros Q2. destruct (of_vars_inj _ _ _ (Forall_inv Rz1 q Q) (sh_defs _ _ _ Shy q Q2)) as [w [[V|V] W]]; [apply V; exact (proj2 Fy w W)|apply (Dc w V); apply in_or_app; right; exact W]. }
        apply (zconds_rd C2 _ z zx zy zs' Ez); [intros z2 E2; rewrite Pz in E2; injection E2 as <-; apply (incl_tran (Rz z' Eq)); apply incl_appr, incl_refl|intros z2 E2 T2; rewrite Pz in E2; injection E2 as <-; congruence|intros; exact By].
      - destruct (prop_stmts Cc sx) as [[C2 l2]|] eqn:Es; [|discriminate Pi]. cbn [obind fst snd] in Pi. destruct (prop_stmts C2 sy) as [[C3 l3]|] eqn:Et; [|discriminate Pi]. cbn [obind fst snd app] in Pi. injection Pi as <- <-. destruct (Gx C2 l2 eq_refl) as [Ax Bx].
        pose proof (prop_lit _ _ _ _ Lcc Es) as L2. pose proof (inv_moves _ _ _ _ _ _ (prop_moves _ _ _ _ Es) Ic) as I2. destruct (IHy sy zy C2 _ C3 l3 Ey Fy L2 I2 Et) as [Ay By].
        assert (Df : defss [ZIf z' l2 l3] = defss l2 ++ defss l3) by (unfold defss; cbn [flat_map defs]; rewrite app_nil_r; reflexivity). rewrite Df. split.
        + change (reads_oks Dc' [ZIf z' l2 l3]) with (reads_ok Dc' (ZIf z' l2 l3) && true). rewrite reads_if, Ax, Ay. rewrite !andb_true_r. apply inclb_ok. exact (Rz z' Eq).
        + assert (Pr : prop_stmts Cc (sx ++ sy) = Some (C3, l2 ++ l3)).
          { clear - Es Et. revert Cc l2 Es. induction sx as [|s r IH]; intros Cc l2 Es; [injection Es as -> <-; exact Et|]. cbn [app prop_stmts] in *. destruct (prop_stmt Cc s) as [[Ca la]|]; [|discriminate Es]. cbn [obind fst snd] in *. destruct (prop_stmts Ca r) as [[Cb lb]|] eqn:Er; [|discriminate Es]. cbn [obind fst snd] in Es. injection Es as -> <-. rewrite (IH _ _ Er). cbn [obind fst snd]. rewrite app_assoc. reflexivity. }
          apply (zconds_rd C3 _ z zx zy zs' Ez).
          * assert (Q : Forall (rd C3 ((defss l2 ++ defss l3) ++ Dc')) [z]); [|exact (Forall_inv Q)]. apply (later_rd S (tdefs c) (tdefs x ++ tdefs y) [z] Cc C3 Dc' _ (sx ++ sy) (l2 ++ l3)); [exact Rz1| |exact Fxy|exact Dc|exact Pr|apply incl_appr, incl_refl|constructor; [exact Rz|constructor]].
            intros q Q. rewrite defss_app in Q. apply in_app_or in Q as [Q|Q]; [apply (sh_defs _ _ _ Shx) in Q|apply (sh_defs _ _ _ Shy) in Q]; revert Q; apply ov_mono; intros w W; apply in_or_app; auto.
          * intros _ _ _. apply (later_rd S (tdefs x) (tdefs y) zx C2 C3 (defss l2 ++ Dc') _ sy l3); [exact Rx|exact (sh_defs _ _ _ Shy)|exact Fy|exact Dx|exact Et| |exact Bx]. intros q Q. rewrite !in_app_iff in *. tauto.
          * intros _ _ _. revert By. apply Forall_impl. intros q Q z2 E2. apply (incl_tran (Q z2 E2)). apply app3. }
    destruct Main as [M1 M2]. split; [apply roks_app; [exact Ac|exact M1]|]. revert M2. apply Forall_impl. intros q Q z2 E2. apply (incl_tran (Q z2 E2)). rewrite defss_app. apply app3.
  - intros S S' bs e t Ys IHs Te IHe ss zs C D C1 l1 H Fr Lc I P. rewrite u_fblock in H. destruct (tflat_stmts bs) as [sa|] eqn:Ea; [|discriminate H]. destruct (tflat e) as [[sb zb]|] eqn:Eb; [|discriminate H]. injection H as <- <-. rewrite u_dblock in *. destruct (fresh_app _ _ _ Fr) as [F1 [F2 Di]].
    assert (F3 : fresh S' (tdefs e)) by (apply (fresh_next S S' (sdefss bs)); [exact Fr|apply (dom_tstys bs); exact Ys]). apply prop_stmts_app in P as [Ca [la [lb [Pa [Pb ->]]]]]. destruct (IHs sa C D Ca la Ea F1 Lc I Pa) as [A1 I1]. destruct (IHe sb zb Ca _ C1 lb Eb F3 (prop_lit _ _ _ _ Lc Pa) I1 Pb) as [A2 B2].
    split; [apply roks_app; assumption|]. revert B2. apply Forall_impl. intros q Q z2 E2. apply (incl_tran (Q z2 E2)). rewrite defss_app. apply app3.
  - intros S ss zss C D C1 l1 H Fr Lc I P. unfold tflats in H. cbn [flat_list] in H. injection H as <- <-. injection P as <- <-. split; [reflexivity|constructor].
  - intros S e es t ts Te IHe Ts IHr ss zss C D C1 l1 H Fr Lc I P. unfold tflats in H. cbn [flat_list] in H. destruct (tflat e) as [[sa za]|] eqn:Ea; [|discriminate H]. destruct (flat_list tflat es) as [[sb zb]|] eqn:Eb; [|discriminate H]. cbn [fst snd] in H. injection H as <- <-.
    unfold tdefss in *. cbn [tdefs_list] in *. destruct (fresh_app _ _ _ Fr) as [F1 [F2 Di]]. apply prop_stmts_app in P as [Ca [la [lb [Pa [Pb ->]]]]]. destruct (IHe sa za C D Ca la Ea F1 Lc I Pa) as [A1 B1]. destruct (IHr sb zb Ca _ C1 lb Eb F2 (prop_lit _ _ _ _ Lc Pa) (inv_moves _ _ _ _ _ _ (prop_moves _ _ _ _ Pa) I) Pb) as [A2 B2].
    destruct (proj1 flatten_shape _ _ _ Te sa za Ea F1) as [_ Ra]. destruct (proj1 (proj2 flatten_shape) _ _ _ Ts sb zb Eb F2) as [Shb _].
    split; [apply roks_app; assumption|]. rewrite defss_app. constructor; [|revert B2; apply Forall_impl; intros zs; apply Forall_impl; intros q Q z2 E2; apply (incl_tran (Q z2 E2)); apply app3].
    apply (later_rd S (tdefs e) (tdefs_list tdefs es) za Ca C1 (defss la ++ D) _ sb lb); [exact Ra|exact (sh_defs _ _ _ Shb)|exact F2|exact Di|exact Pb| |exact B1]. intros q Q. rewrite !in_app_iff in *. tauto.
  - intros S x t e G Te IH ss C D C1 l1 H Fr Lc I P. rewrite u_fdef in H. destruct (tflat e) as [[sa za]|] eqn:Ea; [|discriminate H]. destruct (length (flat_ids (SBase x) t) =? length za)%nat eqn:El; [|discriminate H]. injection H as <-. rewrite u_ddef in *. destruct (fresh_app _ _ _ Fr) as [F1 [F2 Di]].
    apply prop_stmts_app in P as [Ca [la [lb [Pa [Pb ->]]]]]. destruct (IH sa za C D Ca la Ea F1 Lc I Pa) as [A B]. destruct (proj1 flatten_shape _ _ _ Te sa za Ea F1) as [_ Ra]. apply Nat.eqb_eq in El.
    destruct (zip_closed (flat_ids (SBase x) t) za Ca (defss la ++ D) C1 lb (of_vars (vis S (tdefs e)))) as [A2 B2]; [|exact Ra|exact El|exact (prop_lit _ _ _ _ Lc Pa)|exact B|exact Pb|].
    + intros [s l] Q [r [E V]]. cbn [fst] in E. apply name_inj in E. subst r. rewrite (id_in _ _ _ _ Q) in V. destruct V as [V|V]; [apply V; apply (proj2 F2); left; reflexivity|apply (Di x V); left; reflexivity].
    + split; [apply roks_app; assumption|]. rewrite defss_app. intros y u s l Ey Q. unfold cupd in Ey. destruct (Z.eqb_spec y x) as [->|N].
      * injection Ey as <-. destruct (B2 (s, l) Q) as [O|O]; [left; exact O|right]. exact (app3 _ _ _ _ O).
      * pose proof (inv_moves _ _ _ _ _ _ (prop_moves _ _ _ _ Pb) (inv_moves _ _ _ _ _ _ (prop_moves _ _ _ _ Pa) I)) as I2. destruct (I2 y u s l Ey Q) as [O|O]; [left; exact O|right]. exact (app3 _ _ _ _ O).
  - intros S e err Te IH ss C D C1 l1 H Fr Lc I P. rewrite u_fassert in H. destruct (tflat e) as [[sa za]|] eqn:Ea; [|discriminate H]. destruct (popE za) as [z|] eqn:Ep; [|discriminate H]. injection H as <-. rewrite u_dassert in *.
    apply prop_stmts_app in P as [Ca [la [lb [Pa [Pb ->]]]]]. destruct (IH sa za C D Ca la Ea Fr Lc I Pa) as [A B]. pose proof (inv_moves _ _ _ _ _ _ (prop_moves _ _ _ _ Pb) (inv_moves _ _ _ _ _ _ (prop_moves _ _ _ _ Pa) I)) as I2. rewrite defss_app. split; [|exact (inv_incl _ _ _ _ (app3 _ _ _) I2)]. apply roks_app; [exact A|].
    cbn [prop_stmts prop_stmt] in Pb. destruct (prop Ca z) as [z'|] eqn:Ez; [|discriminate Pb]. cbn [obind] in Pb. destruct (isb (bconst z') true); [injection Pb as <- <-; reflexivity|]. destruct (isb (bconst z') false); [discriminate Pb|]. injection Pb as <- <-. cbn [app reads_oks reads_ok]. rewrite andb_true_r. apply inclb_ok. rewrite Forall_forall in B. exact (B z (pop_in _ _ Ep) z' Ez).
  - intros S x t em args ts Ts IH O ss C D C1 l1 H Fr Lc I P. rewrite u_femb in H. destruct (tflats args) as [[sa zss]|] eqn:Ea; [|discriminate H]. injection H as <-. rewrite u_demb in *. destruct (fresh_app _ _ _ Fr) as [F1 [F2 Di]].
    apply prop_stmts_app in P as [Ca [la [lb [Pa [Pb ->]]]]]. destruct (IH sa zss C D Ca la Ea F1 Lc I Pa) as [A B]. destruct (proj1 (proj2 flatten_shape) _ _ _ Ts sa zss Ea F1) as [_ Ra]. pose proof (inv_moves _ _ _ _ _ _ (prop_moves _ _ _ _ Pb) (inv_moves _ _ _ _ _ _ (prop_moves _ _ _ _ Pa) I)) as I2.
    cbn [prop_stmts prop_stmt] in Pb. set (xs := map (fun p => name (fst p)) (flat_ids (SBase x) t)) in *. destruct (mapO (prop (cdels Ca xs)) (concat zss)) as [es'|] eqn:Em; [|discriminate Pb]. cbn [obind fst snd app] in Pb. injection Pb as <- <-. rewrite defss_app. split.
    + apply roks_app; [exact A|]. cbn [reads_oks reads_ok]. rewrite andb_true_r. apply inclb_ok. apply (mapO_rd _ _ _ _ Em). assert (B' : Forall (rd Ca (defss la ++ D)) (concat zss)) by (clear - B; induction B as [|a l X _ IHl]; [constructor|]; cbn [concat]; apply Forall_app; split; assumption).
      pose proof (reads_concat _ _ Ra) as Rc. unfold reads in Rc. rewrite Forall_forall in B', Rc |- *. intros q Q. apply (rd_ext Ca _ (defss la ++ D) _ q); [|apply incl_refl|exact (B' q Q)]. intros y Y. apply cdels_out. intros Z. apply in_map_iff in Z as [[s l] [<- Z]]. destruct (Rc q Q _ Y) as [r [E V]]. cbn [fst] in E. apply name_inj in E. subst r. rewrite (id_in _ _ _ _ Z) in V. destruct V as [V|V]; [apply V; apply (proj2 F2); left; reflexivity|apply (Di x V); left; reflexivity].
    + intros y u s l Ey Q. unfold cupd in Ey. destruct (Z.eqb_spec y x) as [->|N].
      * injection Ey as <-. right. apply app3. apply in_or_app. left. unfold defss. cbn [flat_map defs]. rewrite app_nil_r. unfold xs. apply in_map_iff. exists (s, l). split; [reflexivity|exact Q].
      * destruct (I2 y u s l Ey Q) as [Ok|Ok]; [left; exact Ok|right]. exact (app3 _ _ _ _ Ok).
  - intros S fmt args ts Ts IH ss C D C1 l1 H Fr Lc I P. rewrite u_flog in H. destruct (tflats args) as [[sa zss]|] eqn:Ea; [|discriminate H]. injection H as <-. rewrite u_dlog in *.
    apply prop_stmts_app in P as [Ca [la [lb [Pa [Pb ->]]]]]. destruct (IH sa zss C D Ca la Ea Fr Lc I Pa) as [A B]. pose proof (inv_moves _ _ _ _ _ _ (prop_moves _ _ _ _ Pb) (inv_moves _ _ _ _ _ _ (prop_moves _ _ _ _ Pa) I)) as I2. rewrite defss_app. split; [|exact (inv_incl _ _ _ _ (app3 _ _ _) I2)]. apply roks_app; [exact A|].
    cbn [prop_stmts prop_stmt] in Pb. destruct (mapO (prop Ca) (concat zss)) as [es'|] eqn:Em; [|discriminate Pb]. cbn [obind fst snd app] in Pb. injection Pb as <- <-. cbn [reads_oks reads_ok]. rewrite andb_true_r. apply inclb_ok. apply (mapO_rd _ _ _ _ Em). clear - B; induction B as [|a l X _ IHl]; [constructor|]; cbn [concat]; apply Forall_app; split; assumption.
  - intros S zs C D C1 l1 H Fr Lc I P. cbn in H. injection H as <-. injection P as <- <-. split; [reflexivity|exact I].
  - intros S S1 S2 s ss Y1 IH1 Y2 IH2 zs C D C1 l1 H Fr Lc I P. unfold tflat_stmts in H. cbn [flat_stmt_list] in H. destruct (tflat_stmt s) as [za|] eqn:Ea; [|discriminate H]. destruct (flat_stmt_list tflat_stmt ss) as [zb|] eqn:Eb; [|discriminate H]. injection H as <-.
    unfold sdefss in *. cbn [tdefs_stmts] in *. destruct (fresh_app _ _ _ Fr) as [F1 [_ Di]]. assert (F2 : fresh S1 (sdefss ss)) by (apply (fresh_next S S1 (sdefs s)); [exact Fr|apply dom_tsty; exact Y1]).
    apply prop_stmts_app in P as [Ca [la [lb [Pa [Pb ->]]]]]. destruct (IH1 za C D Ca la Ea F1 Lc I Pa) as [A1 I1]. destruct (IH2 zb Ca _ C1 lb Eb F2 (prop_lit _ _ _ _ Lc Pa) I1 Pb) as [A2 I2]. split; [apply roks_app; assumption|]. rewrite defss_app. exact (inv_incl _ _ _ _ (app3 _ _ _) I2).
Qed.

(** ** Programs *)
Lemma inv_params : forall ps, inv (tparams ps) (fun _ => None) (map zpid (flat_map flat_param ps)).
Proof.
  intros ps x t s l E I. right. unfold tparams in E. assert (G : forall ps (S : tctx), fold_left (fun S p => cupd S (fst (fst p)) (snd (fst p))) ps S x = Some t -> S x = Some t \/ In (name s) (map zpid (flat_map flat_param ps))).
  { clear - I. induction ps as [|q ps IH]; intros S H; cbn [fold_left] in H; [left; exact H|]. cbn [flat_map]. rewrite map_app. apply IH in H as [H|H]; [|right; apply in_or_app; right; exact H]. unfold cupd in H. destruct (Z.eqb_spec x (fst (fst q))) as [Ex|N]; [|left; exact H]. injection H as H. right. apply in_or_app. left. unfold flat_param. rewrite map_map. cbn [zpid]. apply in_map_iff. exists (s, l). split; [reflexivity|]. rewrite <- Ex, H. exact I. }
  destruct (G ps _ E) as [H|H]; [discriminate H|exact H].
Qed.
Lemma closed_body : forall S S3 p1 args ss sr zs e t n, inv S (fun _ => None) (map zpid args) -> tty S3 e t -> tflat e = Some (sr, zs) -> fresh S3 (tdefs e) ->
  (forall C D C1 l1, cst_lit C -> inv S C D -> prop_stmts C ss = Some (C1, l1) -> reads_oks D l1 = true /\ inv S3 C1 (defss l1 ++ D)) ->
  propagate (mkZProg args (ss ++ sr ++ [ZReturn zs]) n) = Some p1 -> closed_prog p1 = true.
Proof.
  intros S S3 p1 args ss sr zs e t n I T F Fr H P. unfold propagate in P. cbn [zbody zargs zret] in P. destruct (prop_stmts (fun _ => None) (ss ++ sr ++ [ZReturn zs])) as [[C' l']|] eqn:E; [|discriminate P]. cbn [obind snd] in P. injection P as <-. unfold closed_prog. cbn [zargs zbody].
  apply prop_stmts_app in E as [Ca [la [lb [Pa [Pb ->]]]]]. apply prop_stmts_app in Pb as [Cb [lb1 [lc [Pb [Pc ->]]]]]. destruct (H _ _ Ca la empty_lit I Pa) as [A1 I1]. destruct (proj1 flatten_closed _ _ _ T sr zs Ca _ Cb lb1 F Fr (prop_lit _ _ _ _ empty_lit Pa) I1 Pb) as [A2 B2].
  apply roks_app; [exact A1|]. apply roks_app; [exact A2|]. cbn [prop_stmts prop_stmt] in Pc. destruct (mapO (prop Cb) zs) as [zs'|] eqn:Em; [|discriminate Pc]. cbn [obind fst snd app] in Pc. injection Pc as <- <-. cbn [reads_oks reads_ok]. rewrite andb_true_r. apply inclb_ok. exact (mapO_rd _ _ _ _ Em B2).
Qed.
Theorem flatten_closed_prog : forall p z p1, well_typed p -> flatten p = Some z -> propagate z = Some p1 -> closed_prog p1 = true.
Proof.
  intros p z p1 Wt H P. pose proof Wt as [G [[S [T1 T2]] _]]. destruct (well_fresh p S Wt T1) as [_ [_ [F1 [F2 _]]]]. apply flatten_inv in H as [ss [sr [zs [E1 [E2 ->]]]]].
  apply (closed_body (tparams (targs p)) S p1 _ ss sr zs (tret p) (tretty p) (prim_count (tretty p)) (inv_params (targs p)) T2 E2 F2); [|exact P]. intros C D C1 l1 Lc I Q. exact (proj2 (proj2 (proj2 flatten_closed)) _ _ _ T1 ss C D C1 l1 E1 F1 Lc I Q).
Qed.
End Closed.
