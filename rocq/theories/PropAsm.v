(** Property theorems: assembly constraints (C25).
    Reading guide. [transform l r] (Asm.v): the constraint [l === r] of an assembly block after the assembly transformer, [None] for
    "Non-quadratic constraints are not allowed". [degree e]: the degree of e as a polynomial in its identifiers ([None] if e has
    operators other than addition, subtraction, product). [sem rho e]: the value of e when the identifiers have the values rho. *)
From Coq Require Import ZArith NArith List Bool Lia Ring.
From Verif Require Import PField IR Interp Bits Flat Zir Codegen CgBase CgExpr CgProg UintOpt UintOptProofs Panic DeadCode ZProp Asm Concrete Primality CgExamples.
Import ListNotations.
Open Scope Z_scope.

Section Form.
Context {PF : PrimeField}.
Definition deg_le (d : nat) (e : zexp) : Prop := exists n, degree e = Some n /\ (n <= d)%nat.
(** an affine expression equal to an affine expression or to a product of two *)
Definition rank1 (l r : zexp) : Prop := deg_le 1 l /\ (deg_le 1 r \/ exists a b, r = ZFBin FMul a b /\ deg_le 1 a /\ deg_le 1 b).
(** every product with a literal has an affine other factor *)
Fixpoint simple_products (e : zexp) : Prop :=
  match e with
  | ZFBin op l r => simple_products l /\ simple_products r /\
      match op, l, r with FMul, ZFVal _, _ => deg_le 1 r | FMul, _, ZFVal _ => deg_le 1 l | _, _, _ => True end
  | _ => True
  end.
Ltac ob H := match type of H with
  | obind ?m _ = Some _ => let E := fresh "E" in destruct m eqn:E; cbn [obind] in H; [|discriminate H]
  end.
Lemma linear_deg : forall e, simple_products e -> is_linear e = true -> deg_le 1 e.
Proof.
  induction e using zexp_ind'; intros Hs Hl; cbn [is_linear] in Hl; try discriminate Hl.
  - exists 0%nat. split; [reflexivity|lia].
  - destruct k; try discriminate Hl. exists 1%nat. split; [reflexivity|lia].
  - cbn [simple_products] in Hs. destruct Hs as [S1 [S2 S3]].
    assert (A : op <> FMul -> op <> FDiv -> deg_le 1 (ZFBin op e1 e2)).
    { intros N1 N2. assert (L : is_linear e1 && is_linear e2 = true) by (destruct op; try congruence; exact Hl). apply andb_true_iff in L as [L1 L2].
      destruct (IHe1 S1 L1) as [a [A1 A2]], (IHe2 S2 L2) as [b [B1 B2]]. exists (Nat.max a b). split; [|lia]. destruct op; try congruence; cbn [degree]; rewrite A1, B1; reflexivity. }
    destruct op; try (apply A; discriminate); try discriminate Hl.
    assert (K : (exists c, e1 = ZFVal c) /\ deg_le 1 e2 \/ (exists c, e2 = ZFVal c) /\ deg_le 1 e1) by (destruct e1; try (left; split; [eexists; reflexivity|exact S3]); destruct e2; try discriminate Hl; right; (split; [eexists; reflexivity|exact S3])).
    destruct K as [[[u ->] [w [N1 N2]]]|[[u ->] [w [N1 N2]]]]; exists w; (split; [cbn [degree]; rewrite N1; cbn [obind]; f_equal; lia|exact N2]).
Qed.
Lemma pfbin_deg : forall op l r a b e, op <> FDiv -> degree l = Some a -> degree r = Some b -> pfbin op l r = Some e ->
  deg_le (match op with FMul => a + b | _ => Nat.max a b end)%nat e.
Proof.
  intros op l r a b e N A B E.
  assert (K : deg_le (match op with FMul => a + b | _ => Nat.max a b end)%nat (ZFBin op l r)).
  { exists (match op with FMul => a + b | _ => Nat.max a b end)%nat. split; [|lia]. destruct op; try congruence; cbn [degree]; rewrite A, B; reflexivity. }
  assert (V : forall c d, deg_le d (ZFVal c)) by (intros c d; exists 0%nat; split; [reflexivity|lia]).
  destruct op; try congruence; unfold pfbin in E;
    repeat match type of E with (if ?c then _ else _) = _ => destruct c end; try (injection E as <-; solve [exact K | apply V | exists a; split; [exact A|lia] | exists b; split; [exact B|lia]]);
    (destruct l; try (injection E as <-; exact K); destruct r; injection E as <-; solve [exact K|apply V]).
Qed.
Lemma poly_degree : forall e, poly e -> exists d, degree e = Some d.
Proof.
  induction e using zexp_ind'; intros P; cbn [poly] in P; try contradiction; cbn [degree]; [eexists; reflexivity|subst k; eexists; reflexivity|].
  destruct P as [N [P1 P2]]. destruct (IHe1 P1) as [a A], (IHe2 P2) as [b B]. rewrite A, B. destruct op; try congruence; eexists; reflexivity.
Qed.
Lemma prop_deg : forall e e' d, degree e = Some d -> prop (fun _ => None) e = Some e' -> deg_le d e'.
Proof.
  induction e using zexp_ind'; intros e' d D E; cbn [degree] in D; try discriminate D.
  - injection D as <-. injection E as <-. exists 0%nat. split; [reflexivity|lia].
  - destruct k; try discriminate D. injection D as <-. injection E as <-. exists 1%nat. split; [reflexivity|lia].
  - assert (N : op <> FDiv) by (destruct op; discriminate). assert (D' : exists a b, degree e1 = Some a /\ degree e2 = Some b /\ d = (match op with FMul => a + b | _ => Nat.max a b end)%nat).
    { destruct (degree e1) as [a|]; [|destruct op; discriminate D]. destruct (degree e2) as [b|]; [|destruct op; discriminate D]. exists a, b. split; [reflexivity|]. split; [reflexivity|]. destruct op; try congruence; injection D as <-; reflexivity. }
    destruct D' as [a [b [A [B Dd]]]]. cbn [prop] in E. ob E. ob E. destruct (IHe1 _ _ A eq_refl) as [a' [A1 A2]], (IHe2 _ _ B eq_refl) as [b' [B1 B2]].
    destruct (pfbin_deg _ _ _ _ _ _ N A1 B1 E) as [n [N1 N2]]. exists n. split; [exact N1|]. destruct op; lia.
Qed.
Lemma lin_fold_deg : forall l e, deg_le 1 e -> deg_le 1 (fold_left (fun acc (t : F * ident) => ZFBin FAdd acc (ZFBin FMul (ZFVal (fst t)) (ZId KF (snd t)))) l e).
Proof. induction l as [|t l IH]; intros e [n [N1 N2]]; cbn [fold_left]; [exists n; auto|]. apply IH. exists (Nat.max n 1). split; [|lia]. cbn [degree]. rewrite N1. reflexivity. Qed.
Lemma pmul_rank : forall l r e, deg_le 1 l -> deg_le 1 r -> pfbin FMul l r = Some e -> deg_le 1 e \/ exists a b, e = ZFBin FMul a b /\ deg_le 1 a /\ deg_le 1 b.
Proof.
  intros l r e A B E. assert (V : forall c, deg_le 1 (ZFVal c)) by (intros c; exists 0%nat; split; [reflexivity|lia]).
  unfold pfbin in E. repeat match type of E with (if ?c then _ else _) = _ => destruct c end; try (injection E as <-; left; auto; fail).
  assert (K : ZFBin FMul l r = e \/ exists c, e = ZFVal c) by (destruct l; try (injection E as <-; left; reflexivity); destruct r; injection E as <-; solve [left; reflexivity|right; eexists; reflexivity]).
  destruct K as [<-|[c ->]]; [right; eauto|left; apply V].
Qed.
Lemma quad_rank : forall qs e e', quad_exp qs = Some e -> prop (fun _ => None) e = Some e' -> deg_le 1 e' \/ exists a b, e' = ZFBin FMul a b /\ deg_le 1 a /\ deg_le 1 b.
Proof.
  intros qs e e' E P.
  assert (K : (exists c, e = ZFVal c) \/ exists a b, e = ZFBin FMul a b /\ deg_le 1 a /\ deg_le 1 b).
  { destruct qs as [|[[c a] b] [|[[c2 a2] b2] qs]].
    - injection E as <-. left. eauto.
    - injection E as <-. right. eexists _, _. split; [reflexivity|]. split; exists 1%nat; (split; [reflexivity|lia]).
    - set (Q := (c, a, b) :: (c2, a2, b2) :: qs) in *. unfold quad_exp in E.
      change (obind (common_factor Q) (fun f => obind (mapO (other_factor f) Q) (fun ts => Some (ZFBin FMul (fold_left (fun acc e => ZFBin FAdd acc e) ts (ZFVal f0)) (ZId KF f)))) = Some e) in E.
      ob E. ob E. injection E as <-. right. eexists _, _. split; [reflexivity|]. split; [|exists 1%nat; split; [reflexivity|lia]]. clear E0.
      assert (T : Forall (deg_le 1) l).
      { clearbody Q. clear P. revert l E1. induction Q as [|[[k x] y] Q IH]; intros l E; [injection E as <-; constructor|].
        change (obind (other_factor i (k, x, y)) (fun b => obind (mapO (other_factor i) Q) (fun s => Some (b :: s))) = Some l) in E. ob E. ob E. injection E as <-. constructor; [|auto].
        unfold other_factor in E0. destruct (i =? x); [injection E0 as <-; exists 1%nat; split; [reflexivity|lia]|]. destruct (i =? y); [injection E0 as <-; exists 1%nat; split; [reflexivity|lia]|discriminate E0]. }
      clear - T. assert (G : forall e, deg_le 1 e -> deg_le 1 (fold_left (fun acc x => ZFBin FAdd acc x) l e)); [|apply G; exists 0%nat; split; [reflexivity|lia]].
      induction T as [|t ts [n [Ht Hn]] _ IH]; intros e [m [M1 M2]]; cbn [fold_left]; [exists m; auto|]. apply IH. exists (Nat.max m n). split; [cbn [degree]; rewrite M1, Ht; reflexivity|lia]. }
  destruct K as [[c ->]|[a [b [-> [[na [A1 A2]] [nb [B1 B2]]]]]]].
  - injection P as <-. left. exists 0%nat. split; [reflexivity|lia].
  - cbn [prop] in P. ob P. ob P. destruct (prop_deg _ _ _ A1 E0) as [xa [XA1 XA2]], (prop_deg _ _ _ B1 E1) as [xb [XB1 XB2]]. eapply pmul_rank; [| |exact P]; [exists xa|exists xb]; (split; [assumption|lia]).
Qed.
Lemma form_ok : forall l r l' r', simple_products l -> simple_products r -> transform l r = Some (l', r') -> rank1 l' r'.
Proof.
  intros l r l' r' Sl Sr T. unfold transform in T. destruct (classify l r) as [[q l1] r1] eqn:C. destruct q.
  - injection T as <- <-. unfold classify in C. destruct (is_fid l && is_fid r) eqn:F.
    { injection C as <- <-. apply andb_true_iff in F as [F1 F2]. destruct l; try discriminate F1. destruct k; try discriminate F1. destruct r; try discriminate F2. destruct k; try discriminate F2. split; [|left]; exists 1%nat; (split; [reflexivity|lia]). }
    assert (M : forall e a b o, is_mult e = Some (a, b) -> simple_products e -> simple_products o -> is_linear o = true -> is_linear a && is_linear b = true -> rank1 o e).
    { intros e a b o Me Se So Lo Lab. destruct e; try discriminate Me. destruct op; try discriminate Me. injection Me as -> ->. apply andb_true_iff in Lab as [La Lb]. cbn [simple_products] in Se. destruct Se as [Sa [Sb _]].
      split; [apply linear_deg; auto|]. right. exists a, b. split; [reflexivity|]. split; apply linear_deg; auto. }
    destruct (is_mult l) as [[a b]|] eqn:Ml; [destruct (is_linear r) eqn:Lr|].
    + injection C as C1 <- <-. eapply M; eauto.
    + destruct (is_mult r) as [[a' b']|] eqn:Mr; [destruct (is_linear l) eqn:Ll|]; try discriminate C. injection C as C1 <- <-. eapply M; eauto.
    + destruct (is_mult r) as [[a' b']|] eqn:Mr; [destruct (is_linear l) eqn:Ll|]; try discriminate C. injection C as C1 <- <-. eapply M; eauto.
  - ob T. ob T. ob T. ob T. injection T as <- <-. split; [|eapply quad_rank; eauto].
    assert (D : deg_le 1 (lin_exp (lqk l0) (lql l0))).
    { destruct (lin_fold_deg (lql l0) (ZFVal f0)) as [n [N1 N2]]; [exists 0%nat; split; [reflexivity|lia]|]. exists n. split; [|exact N2]. unfold lin_exp. cbn [degree]. rewrite N1. reflexivity. }
    destruct D as [n [N1 N2]]. destruct (prop_deg _ _ _ N1 E1) as [m [M1 M2]]. exists m. split; [exact M1|lia].
Qed.
End Form.

(** C25, for constraints of degree at most two: the transformed constraint has the same solutions. Missing from the full
    property: constraints of higher degree are not always rejected, and then the meaning can change (C25_degree_refuted). *)
Theorem C25_meaning_partial : forall (PF : PrimeField) l r dl dr l' r' (rho : env_s) x y,
  degree l = Some dl -> degree r = Some dr -> (dl <= 2)%nat -> (dr <= 2)%nat ->
  transform l r = Some (l', r') -> sem rho l = Some (VF x) -> sem rho r = Some (VF y) ->
  exists x' y', sem rho l' = Some (VF x') /\ sem rho r' = Some (VF y') /\ (x' = y' <-> x = y).
Proof. intros PF l r dl dr l' r' rho x y. apply transform_ok. Qed.
Print Assumptions C25_meaning_partial.
(** Every accepted constraint is of rank-1 form, if literals only multiply affine expressions. *)
Theorem C25_form : forall (PF : PrimeField) l r l' r', simple_products l -> simple_products r -> transform l r = Some (l', r') -> rank1 l' r'.
Proof. intros PF l r l' r'. apply form_ok. Qed.
Print Assumptions C25_form.
(** A constraint of degree at most one is never rejected. *)
Theorem C25_affine_accepted : forall (PF : PrimeField) l r dl dr, degree l = Some dl -> degree r = Some dr -> (dl <= 1)%nat -> (dr <= 1)%nat ->
  forall (rho : env_s) x y, sem rho l = Some (VF x) -> sem rho r = Some (VF y) -> exists c, transform l r = Some c.
Proof.
  intros PF l r dl dr D1 D2 H1 H2 rho x y X Y. unfold transform. destruct (classify l r) as [[q l1] r1] eqn:C. destruct q; [eexists; reflexivity|].
  assert (K : exists a b x1 y1, degree l1 = Some a /\ degree r1 = Some b /\ (a <= 1)%nat /\ (b <= 1)%nat /\ sem rho l1 = Some (VF x1) /\ sem rho r1 = Some (VF y1)).
  { apply classify_cases in C as [[-> ->]|[-> ->]]; eauto 12. }
  destruct K as [a [b [x1 [y1 [A [B [HA [HB [X1 Y1]]]]]]]]].
  assert (Dg : degree (ZFBin FSub l1 r1) = Some (Nat.max a b)) by (cbn [degree]; rewrite A, B; reflexivity).
  destruct (to_lqc_ok _ _ Dg ltac:(lia)) as [q [Q1 [[_ Q2] Q3]]]. rewrite Q1. cbn [obind]. rewrite Q2 by lia. cbn [quad_exp obind].
  assert (Sv : sem rho (ZFBin FSub l1 r1) = Some (VF (fsub x1 y1))) by (cbn [sem]; rewrite X1, Y1; reflexivity).
  pose proof (to_lqc_ids _ _ _ _ Q1 Sv) as Ids. unfold fids in Ids. apply Forall_app in Ids as [I1 _]. rewrite Forall_map in I1.
  destruct (prop_poly (lin_exp (lqk q) (lql q)) rho _ ltac:(unfold lin_exp; cbn [poly]; split; [discriminate|split; [exact I|apply poly_lin; exact I]]) (lin_exp_sem rho (lqk q) (lql q) I1)) as [l2 [P1 P2]].
  rewrite P1. cbn [obind prop]. eexists. reflexivity.
Qed.
Print Assumptions C25_affine_accepted.

(** ** Over the BN254 scalar field *)
Definition fid (x : ident) : @zexp bn254 := ZId KF x.
Definition flit (k : Z) : @zexp bn254 := ZFVal (of_Z k).
Definition setv (l : list (ident * Z)) : @env_s bn254 :=
  fun x => match find (fun p => fst p =? x) l with Some (_, v) => Some (VF (of_Z v)) | None => None end.
(** x === a*a*b is accepted, and becomes x === 0: x = 12, a = 2, b = 3 satisfies the former only, x = 0 the latter only. *)
Theorem C25_degree_refuted : exists (l r l' r' : @zexp bn254) (rho rho' : env_s) x y x' y' u v u' v',
  degree r = Some 3%nat /\ transform l r = Some (l', r') /\
  sem rho l = Some (VF x) /\ sem rho r = Some (VF y) /\ x = y /\ sem rho l' = Some (VF x') /\ sem rho r' = Some (VF y') /\ x' <> y' /\
  sem rho' l = Some (VF u) /\ sem rho' r = Some (VF v) /\ u <> v /\ sem rho' l' = Some (VF u') /\ sem rho' r' = Some (VF v') /\ u' = v'.
Proof.
  exists (fid 1), (ZFBin FMul (ZFBin FMul (fid 2) (fid 2)) (fid 3)). destruct (transform (fid 1) (ZFBin FMul (ZFBin FMul (fid 2) (fid 2)) (fid 3))) as [[l' r']|] eqn:E; [|vm_compute in E; discriminate E].
  exists l', r', (setv [(1, 12); (2, 2); (3, 3)]), (setv [(1, 0); (2, 2); (3, 3)]).
  assert (El : l' = fid 1 /\ r' = ZFVal f0). { assert (X : transform (fid 1) (ZFBin FMul (ZFBin FMul (fid 2) (fid 2)) (fid 3)) = Some (fid 1, ZFVal f0)) by (unfold transform, classify, is_fid, is_mult, is_linear, fid; cbn [andb]; cbn [to_lqc obind lqc_mul lqc_sub lqk lql lqq map app flat_map negb orb quad_exp]; cbn; reflexivity). rewrite X in E. injection E as <- <-. auto. }
  destruct El as [-> ->]. exists (of_Z 12), (fmul (fmul (of_Z 2) (of_Z 2)) (of_Z 3)), (of_Z 12), f0, (of_Z 0), (fmul (fmul (of_Z 2) (of_Z 2)) (of_Z 3)), (of_Z 0), f0.
  split; [reflexivity|]. split; [reflexivity|]. split; [reflexivity|]. split; [reflexivity|]. split; [apply F_ext; vm_compute; reflexivity|]. split; [reflexivity|]. split; [reflexivity|].
  split; [intros X; apply (f_equal fval) in X; vm_compute in X; discriminate X|]. split; [reflexivity|]. split; [reflexivity|]. split; [intros X; apply (f_equal fval) in X; vm_compute in X; discriminate X|].
  split; [reflexivity|]. split; [reflexivity|]. apply F_ext; vm_compute; reflexivity.
Qed.
Print Assumptions C25_degree_refuted.
(** non-vacuity: (a + b)*(a + 2) - 5*c === x + 3*b has degree 2, is accepted (common factor a), and holds for x = 6, a = 2, b = 3, c = 1 *)
Definition ex_asm_l : @zexp bn254 := ZFBin FSub (ZFBin FMul (ZFBin FAdd (fid 2) (fid 3)) (ZFBin FAdd (fid 2) (flit 2))) (ZFBin FMul (flit 5) (fid 4)).
Definition ex_asm_r : @zexp bn254 := ZFBin FAdd (fid 1) (ZFBin FMul (flit 3) (fid 3)).
Example C25_nonvacuous : exists l' r', transform ex_asm_l ex_asm_r = Some (l', r') /\ degree ex_asm_l = Some 2%nat /\ degree ex_asm_r = Some 1%nat /\
  simple_products ex_asm_l /\ simple_products ex_asm_r /\
  (exists x y, sem (setv [(1, 6); (2, 2); (3, 3); (4, 1)]) ex_asm_l = Some (VF x) /\ sem (setv [(1, 6); (2, 2); (3, 3); (4, 1)]) ex_asm_r = Some (VF y) /\ x = y).
Proof.
  destruct (transform ex_asm_l ex_asm_r) as [[l' r']|] eqn:E; [|vm_compute in E; discriminate E]. exists l', r'. split; [reflexivity|]. split; [reflexivity|]. split; [reflexivity|].
  assert (V : forall x, deg_le 1 (@ZId bn254 KF x)) by (intros x; exists 1%nat; split; [reflexivity|lia]).
  unfold ex_asm_l, ex_asm_r, fid, flit. split; [cbn [simple_products]; pose proof (V 4); tauto|]. split; [cbn [simple_products]; pose proof (V 3); tauto|].
  eexists _, _. split; [reflexivity|]. split; [reflexivity|]. apply F_ext. vm_compute. reflexivity.
Qed.
