(** Correctness of the flattening of assertions, built-in functions, statements and programs. *)
From Coq Require Import ZArith Znumtheory NArith List Bool Lia Field.
From Verif Require Import PField SMap IR IRSpec Interp Bits Flat FlatProofs Zir Codegen CgBase CgGadgets CgExpr.
Import ListNotations.
Open Scope Z_scope.

(** ** Assertions *)
Section Assert.
Context {PF : PrimeField}.
Variable ext : Z -> list F -> option (list F).
Variable w : env.
Variable HON : Prop.
Variables (rho : env_s) (G : tenv).
Hypothesis Hreq : (3 <= required_bits)%nat.
Add Field Fcgs : F_field_th.
Notation OK := (ok ext w HON rho G).

(** l.2852-2883 *)
Lemma ok_eq_assert : forall (C : Prop) l r err, (HON -> C -> feval w l = feval w r) ->
  OK C (eq_assert l r err) (fun _ => feval w l = feval w r).
Proof.
  intros C l r err HC. unfold eq_assert.
  assert (Hmul : forall a b z, (HON -> C -> feval w z = fmul (feval w a) (feval w b)) ->
    OK C (z' <- linearise z ;; a' <- linearise a ;; b' <- linearise b ;; emit (XCond z' (XMul a' b') err))
      (fun _ => feval w z = fmul (feval w a) (feval w b))).
  { intros a b z Hz. eapply ok_bind; [apply ok_linearise|]. intros z' [Hz' _]. eapply ok_bind; [apply ok_linearise|]. intros a' [Ha _].
    eapply ok_bind; [apply ok_linearise|]. intros b' [Hb _]. eapply ok_weaken; [apply ok_cond|].
    - intros h hc. cbn [feval]. rewrite Hz', Ha, Hb. symmetry; auto.
    - cbn beta. intros tt0 E. cbn [feval] in E. rewrite Hz', Ha, Hb in E. symmetry; auto. }
  assert (Hone : forall x z, (HON -> C -> feval w x = feval w z) ->
    OK C (z' <- linearise z ;; x' <- linearise x ;; emit (XCond z' (XMul x' one) err)) (fun _ => feval w x = feval w z)).
  { intros x z Hz. eapply ok_bind; [apply ok_linearise|]. intros z' [Hz' _]. eapply ok_bind; [apply ok_linearise|]. intros x' [Hx _].
    eapply ok_weaken; [apply ok_cond|].
    - intros h hc. cbn [feval one]. rewrite Hz', Hx, (Hz h hc). ring.
    - cbn beta. intros tt0 E. cbn [feval one] in E. rewrite Hz', Hx in E. rewrite <- E. ring. }
  destruct l; try (destruct r; try (apply Hone; exact HC); apply Hmul; exact HC).
  eapply ok_weaken; [apply Hmul; intros h hc; rewrite <- (HC h hc); reflexivity|]. cbn beta. intros tt0 E. rewrite E. reflexivity.
Qed.
(** l.2815-2843 *)
Lemma ok_not_zero : forall (C : Prop) x, (HON -> C -> feval w x <> f0) -> OK C (not_zero_assert x) (fun _ => feval w x <> f0).
Proof.
  intros C x HC. unfold not_zero_assert. eapply ok_bind; [apply ok_define|]. intros v Hv.
  eapply ok_bind; [apply ok_fresh|]. intros i _. eapply ok_bind; [apply ok_dir|]. intros tt0 Hd.
  cbn [map feval exec_solver one] in Hd. eapply ok_weaken; [apply ok_cond|].
  - intros h hc. specialize (HC h hc). cbn [feval one]. specialize (Hd h). rewrite Hv in *.
    destruct (Feqb_spec (feval w x) f0) as [|_]; [contradiction|]. injection Hd as Hd. rewrite <- Hd. field. auto.
  - cbn beta. intros tt1 E Hz. cbn [feval one] in E. rewrite Hv, Hz in E. apply F_1_neq_0. rewrite <- E. ring.
Qed.
Lemma ok_enforce_one : forall (C : Prop) e b err, feval w e = f_of_bool b -> (HON -> C -> b = true) ->
  OK C (enforce_one e err) (fun _ => b = true).
Proof.
  intros C e b err He HC. unfold enforce_one. eapply ok_weaken; [apply ok_cond|].
  - intros h hc. rewrite He, (HC h hc). reflexivity.
  - cbn beta. intros tt0 E. rewrite He in E. destruct b; auto. cbn in E. symmetry in E. exfalso. apply F_1_neq_0. auto.
Qed.
Definition cmpZ (le : bool) (a b : Z) : bool := if le then a <=? b else a <? b.
Lemma ok_enforce : forall (C : Prop) (le : bool) e c err, (HON -> C -> cmpZ le (fval (feval w e)) (fval c) = true) ->
  OK C ((if le then enforce_constant_le else enforce_constant_lt) e c err) (fun _ => cmpZ le (fval (feval w e)) (fval c) = true).
Proof.
  intros C [|] e c err HC; cbn [cmpZ] in *.
  - eapply ok_weaken; [apply ok_enforce_constant_le; auto; intros h hc; apply Z.leb_le; auto|]. cbn beta. intros tt0 E. apply Z.leb_le; auto.
  - eapply ok_weaken; [apply ok_enforce_constant_lt; auto; intros h hc; apply Z.ltb_lt; auto|]. cbn beta. intros tt0 E. apply Z.ltb_lt; auto.
Qed.
Lemma ok_cmp_check : forall (C : Prop) (le : bool) l r n, (S n < required_bits)%nat ->
  (is_val l || is_val r = false -> fval (feval w l) < pow2 n /\ fval (feval w r) < pow2 n) ->
  OK C ((if le then le_check else lt_check) l r n) (fun z => feval w z = f_of_bool (cmpZ le (fval (feval w l)) (fval (feval w r)))).
Proof. intros C [|] l r n Hn Hb; [apply ok_le_check|apply ok_lt_check]; auto. Qed.
Lemma cmpZ_flip : forall le m a b, cmpZ le (m - a) (m - b) = cmpZ le b a.
Proof.
  intros [|] m a b; cbn [cmpZ]; [destruct (Z.leb_spec (m - a) (m - b)), (Z.leb_spec b a)|destruct (Z.ltb_spec (m - a) (m - b)), (Z.ltb_spec b a)]; auto; lia.
Qed.
Lemma ok_field_cmp_assert : forall (C : Prop) (le : bool) l r err,
  (HON -> C -> dyn_ok w l r /\ cmpZ le (fval (feval w l)) (fval (feval w r)) = true) ->
  OK C (field_cmp_assert le l r err) (fun _ => dyn_ok w l r /\ cmpZ le (fval (feval w l)) (fval (feval w r)) = true).
Proof.
  intros C le l r err HC. unfold field_cmp_assert.
  assert (Hdyn : is_val l || is_val r = false -> OK C (
      enforce_constant_lt l (of_Z (pow2 safe_width)) eIncompleteDynamicRange ;;;
      enforce_constant_lt r (of_Z (pow2 safe_width)) eIncompleteDynamicRange ;;;
      e <- (if le then le_check else lt_check) l r safe_width ;; enforce_one e err)
     (fun _ => dyn_ok w l r /\ cmpZ le (fval (feval w l)) (fval (feval w r)) = true)).
  { intros Hd. eapply ok_bind; [apply ok_enforce_constant_lt; auto|].
    { intros h hc. rewrite safe_pow by auto. apply (HC h hc); auto. }
    intros tt0 H1. eapply ok_bind; [apply ok_enforce_constant_lt; auto|].
    { intros h hc. rewrite safe_pow by auto. apply (HC h hc); auto. }
    intros tt1 H2. cbn beta in H1, H2. rewrite safe_pow in H1, H2 by auto.
    eapply ok_bind; [apply ok_cmp_check|].
    { unfold safe_width. lia. }
    { auto. }
    intros e He. eapply ok_weaken; [apply (ok_enforce_one C _ _ _ He)|].
    - intros h hc. apply (HC h hc).
    - cbn beta. intros tt2 E. split; [intros _; auto|auto]. }
  assert (Hr : forall c, r = XVal c -> OK C ((if le then enforce_constant_le else enforce_constant_lt) l c err)
     (fun _ => dyn_ok w l r /\ cmpZ le (fval (feval w l)) (fval (feval w r)) = true)).
  { intros c ->. cbn [feval] in *. eapply ok_weaken; [apply ok_enforce; intros h hc; apply (HC h hc)|]. cbn beta. intros tt0 E.
    split; auto. unfold dyn_ok. cbn [is_val]. rewrite orb_true_r. discriminate. }
  assert (Hl : forall c, l = XVal c -> OK C ((if le then enforce_constant_le else enforce_constant_lt) (XSub (XVal fmax) r) (fsub fmax c) err)
     (fun _ => dyn_ok w l r /\ cmpZ le (fval (feval w l)) (fval (feval w r)) = true)).
  { intros c ->. cbn [feval] in *.
    assert (E1 : forall x, fval (fsub fmax x) = pp - 1 - fval x).
    { intros x. rewrite fval_sub_small; rewrite ?fval_fmax; auto. pose proof (fval_range x). lia. }
    eapply ok_weaken; [apply ok_enforce|].
    - intros h hc. cbn [feval]. rewrite !E1, cmpZ_flip. apply (HC h hc).
    - cbn beta. intros tt0 E. cbn [feval] in E. rewrite !E1, cmpZ_flip in E. split; auto. unfold dyn_ok. cbn. discriminate. }
  destruct l, r; first [apply Hr; reflexivity|apply Hl; reflexivity|apply Hdyn; reflexivity].
Qed.
Lemma ok_uint_cmp_assert : forall (C : Prop) (le : bool) n l r err, (S n < required_bits)%nat ->
  fval (feval w l) < pow2 n -> fval (feval w r) < pow2 n ->
  (HON -> C -> cmpZ le (fval (feval w l)) (fval (feval w r)) = true) ->
  OK C (uint_cmp_assert le n l r err) (fun _ => cmpZ le (fval (feval w l)) (fval (feval w r)) = true).
Proof.
  intros C le n l r err Hn Hbl Hbr HC. unfold uint_cmp_assert.
  assert (Hm : fval (fsub (of_Z (pow2 n)) f1) = pow2 n - 1).
  { pose proof (pow2_ltpp n Hn) as Hp. pose proof (pow2_pos n) as Hp2.
    assert (E1 : fval (of_Z (pow2 n)) = pow2 n) by (apply fval_of_Z_small; lia).
    pose proof fval_f1 as E2. rewrite fval_sub_small; rewrite E1, E2; lia. }
  assert (Hdyn : OK C (e <- (if le then le_check else lt_check) l r n ;; enforce_one e err)
     (fun _ => cmpZ le (fval (feval w l)) (fval (feval w r)) = true)).
  { eapply ok_bind; [apply ok_cmp_check; auto|]. intros e He. apply (ok_enforce_one C _ _ _ He). auto. }
  assert (Hr : forall c, r = XVal c -> OK C ((if le then enforce_constant_le else enforce_constant_lt) l c err)
     (fun _ => cmpZ le (fval (feval w l)) (fval (feval w r)) = true)).
  { intros c ->. cbn [feval] in *. apply ok_enforce. auto. }
  assert (Hl : forall c, l = XVal c -> OK C ((if le then enforce_constant_le else enforce_constant_lt)
        (XSub (XVal (fsub (of_Z (pow2 n)) f1)) r) (fsub (fsub (of_Z (pow2 n)) f1) c) err)
     (fun _ => cmpZ le (fval (feval w l)) (fval (feval w r)) = true)).
  { intros c ->. cbn [feval] in *.
    assert (E1 : forall x, fval x < pow2 n -> fval (fsub (fsub (of_Z (pow2 n)) f1) x) = pow2 n - 1 - fval x).
    { intros x Hx. rewrite fval_sub_small; rewrite ?Hm; auto. lia. }
    eapply ok_weaken; [apply ok_enforce|].
    - intros h hc. cbn [feval]. rewrite !E1, cmpZ_flip by auto. apply (HC h hc).
    - cbn beta. intros tt0 E. cbn [feval] in E. rewrite !E1, cmpZ_flip in E by auto. auto. }
  destruct l, r; first [apply Hr; reflexivity|apply Hl; reflexivity|apply Hdyn].
Qed.
Lemma ok_naive : forall (C : Prop) e err, wt G e -> zkind e = KB -> divs rho e -> (HON -> C -> sem rho e = Some (VB true)) ->
  OK C (naive_assert e err) (fun _ => sem rho e = Some (VB true)).
Proof.
  intros C e err W K D HC. unfold naive_assert.
  eapply ok_bind; [apply (flat_ok ext w HON rho G Hreq e C W D); intros h hc; rewrite (HC h hc); discriminate|].
  intros u [v [S Hu]]. apply (ures_KB _ _ _ _ K) in Hu as [b [-> Hb]].
  destruct (is_linear (getf u)); (eapply ok_weaken; [apply ok_cond; intros h hc; specialize (HC h hc); rewrite S in HC; injection HC as ->; rewrite Hb; reflexivity|]);
    cbn beta; intros tt0 E; rewrite Hb in E; destruct b; auto; cbn in E; exfalso; apply F_1_neq_0; auto.
Qed.
Lemma f_of_bool_inj : forall a b, f_of_bool a = f_of_bool b -> a = b.
Proof. intros [] [] H; auto; cbn in H; [|symmetry in H]; exfalso; apply F_1_neq_0; auto. Qed.
Lemma F_eq_fval : forall x y : F, x = y <-> (fval x =? fval y) = true.
Proof. intros. rewrite Z.eqb_eq. split; [congruence|apply F_ext]. Qed.
Lemma dyn_lit : forall l r ul ur a b, feval w ul = a -> feval w ur = b -> is_val ul = is_lit l -> is_val ur = is_lit r ->
  (dyn_ok w ul ur <-> fcmp_defined l r a b = true).
Proof.
  intros l r ul ur a b <- <- H1 H2. unfold dyn_ok, fcmp_defined. rewrite H1, H2. unfold safe_max.
  assert (E : 2 ^ (Z.of_nat required_bits - 2) = pow2 safe_width) by (unfold pow2, safe_width; f_equal; lia).
  rewrite E. destruct (is_lit l || is_lit r); cbn [orb].
  - split; auto. discriminate.
  - rewrite andb_true_iff, !Z.ltb_lt. split; auto.
Qed.

(** l.2437-2690 *)
Theorem ok_assertion : forall e (C : Prop) err, wt G e -> zkind e = KB -> divs rho e -> (HON -> C -> sem rho e = Some (VB true)) ->
  OK C (flat_assert e err) (fun _ => sem rho e = Some (VB true)).
Proof.
  assert (Hnaive : forall e (C : Prop) err, wt G e -> zkind e = KB -> divs rho e -> (HON -> C -> sem rho e = Some (VB true)) ->
     OK C (naive_assert e err) (fun _ => sem rho e = Some (VB true))) by (exact (fun e C err => ok_naive C e err)).
  pose proof (flat_ok ext w HON rho G Hreq) as Hf.
  induction e as [| | | | | |op l IHl r IHr|op l IHl r IHr|e IHe| | | | | |];
    intros C err W K D HC; try (apply Hnaive; assumption); try discriminate.
  - destruct W as [Wl [Wr Wk]]. destruct D as [Dl Dr].
    assert (Hnn : HON -> C -> sem rho l <> None /\ sem rho r <> None).
    { intros h hc. specialize (HC h hc). cbn [sem] in HC. destruct (sem rho l) as [[]|], (sem rho r) as [[]|]; try discriminate; split; discriminate. }
    destruct op; cbn [flat_assert];
      (eapply ok_bind; [apply (Hf l C Wl Dl); intros h hc; apply (Hnn h hc)|]; intros ul [vl [Sl Hl]];
       eapply ok_bind; [apply (Hf r C Wr Dr); intros h hc; apply (Hnn h hc)|]; intros ur [vr [Sr Hr]]).
    1,2,3: (destruct Wk as [Kl Kr]; apply (ures_KF _ _ _ _ Kl) in Hl as [a [-> [Ha La]]]; apply (ures_KF _ _ _ _ Kr) in Hr as [b [-> [Hb Lb]]];
      cbn [sem] in *; rewrite Sl, Sr in *).
    + pose proof (dyn_lit l r _ _ a b Ha Hb La Lb) as HD. eapply ok_weaken; [apply (ok_field_cmp_assert C false)|].
      * intros h hc. specialize (HC h hc). rewrite Ha, Hb, HD. cbn [cmpZ]. destruct (fcmp_defined l r a b); [|discriminate]. split; congruence.
      * cbn beta. intros tt0 [E1 E2]. rewrite Ha, Hb in E2. cbn [cmpZ] in E2. apply HD in E1. rewrite E1, E2. auto.
    + pose proof (dyn_lit l r _ _ a b Ha Hb La Lb) as HD. eapply ok_weaken; [apply (ok_field_cmp_assert C true)|].
      * intros h hc. specialize (HC h hc). rewrite Ha, Hb, HD. cbn [cmpZ]. destruct (fcmp_defined l r a b); [|discriminate]. split; congruence.
      * cbn beta. intros tt0 [E1 E2]. rewrite Ha, Hb in E2. cbn [cmpZ] in E2. apply HD in E1. rewrite E1, E2. auto.
    + eapply ok_weaken; [apply ok_eq_assert|].
      * intros h hc. specialize (HC h hc). rewrite Ha, Hb, F_eq_fval. congruence.
      * cbn beta. intros tt0 E. rewrite Ha, Hb in E. apply F_eq_fval in E. rewrite E. auto.
    + destruct Wk as [al [ar [Kl [Kr [Hw [R1 R2]]]]]]. apply (ures_KU _ _ _ _ _ Kl) in Hl as [x [-> Hx]]. apply (ures_KU _ _ _ _ _ Kr) in Hr as [y [-> Hy]].
      destruct (urep_red Hreq _ _ _ R1 (proj1 Hx)) as [_ [V1 Rx]]. destruct (urep_red Hreq _ _ _ R2 (proj1 Hy)) as [_ [V2 Ry]].
      pose proof (wt_kind _ _ Wl) as Ho. rewrite Kl in Ho. destruct Ho as [_ [Ho _]]. rewrite Kl. cbn [sem] in *. rewrite Sl, Sr in *.
      rewrite <- Hw in Ry.
      eapply ok_weaken; [apply (ok_uint_cmp_assert C false); rewrite ?V1, ?V2; cbn [cmpZ]; try lia|].
      * intros h hc. specialize (HC h hc). congruence.
      * cbn beta. intros tt0 E. rewrite V1, V2 in E. cbn [cmpZ] in E. rewrite E. auto.
    + destruct Wk as [al [ar [Kl [Kr [Hw [R1 R2]]]]]]. apply (ures_KU _ _ _ _ _ Kl) in Hl as [x [-> Hx]]. apply (ures_KU _ _ _ _ _ Kr) in Hr as [y [-> Hy]].
      destruct (urep_red Hreq _ _ _ R1 (proj1 Hx)) as [_ [V1 Rx]]. destruct (urep_red Hreq _ _ _ R2 (proj1 Hy)) as [_ [V2 Ry]].
      pose proof (wt_kind _ _ Wl) as Ho. rewrite Kl in Ho. destruct Ho as [_ [Ho _]]. rewrite Kl. cbn [sem] in *. rewrite Sl, Sr in *.
      rewrite <- Hw in Ry.
      eapply ok_weaken; [apply (ok_uint_cmp_assert C true); rewrite ?V1, ?V2; cbn [cmpZ]; try lia|].
      * intros h hc. specialize (HC h hc). congruence.
      * cbn beta. intros tt0 E. rewrite V1, V2 in E. cbn [cmpZ] in E. rewrite E. auto.
    + destruct Wk as [al [ar [Kl [Kr [Hw [R1 R2]]]]]]. apply (ures_KU _ _ _ _ _ Kl) in Hl as [x [-> Hx]]. apply (ures_KU _ _ _ _ _ Kr) in Hr as [y [-> Hy]].
      destruct (urep_red Hreq _ _ _ R1 (proj1 Hx)) as [_ [V1 Rx]]. destruct (urep_red Hreq _ _ _ R2 (proj1 Hy)) as [_ [V2 Ry]].
      cbn [sem] in *. rewrite Sl, Sr in *.
      eapply ok_weaken; [apply ok_eq_assert|].
      * intros h hc. specialize (HC h hc). rewrite F_eq_fval, V1, V2. congruence.
      * cbn beta. intros tt0 E. apply F_eq_fval in E. rewrite V1, V2 in E. rewrite E. auto.
  - destruct W as [Wl [Wr [Kl Kr]]]. destruct D as [Dl Dr].
    destruct op; cbn [flat_assert].
    + eapply ok_bind; [apply (Hf l C Wl Dl); intros h hc; specialize (HC h hc); cbn [sem] in HC; destruct (sem rho l); discriminate|].
      intros ul [vl [Sl Hl]]. apply (ures_KB _ _ _ _ Kl) in Hl as [a [-> Ha]].
      eapply ok_bind; [apply (Hf r C Wr Dr); intros h hc; specialize (HC h hc); cbn [sem] in HC; rewrite Sl in HC; destruct (sem rho r); discriminate|].
      intros ur [vr [Sr Hr]]. apply (ures_KB _ _ _ _ Kr) in Hr as [b [-> Hb]]. cbn [sem sem_bop] in *. rewrite Sl, Sr in *.
      eapply ok_weaken; [apply ok_eq_assert|].
      * intros h hc. specialize (HC h hc). injection HC as HC. apply eqb_prop in HC. congruence.
      * cbn beta. intros tt0 E. rewrite Ha, Hb in E. apply f_of_bool_inj in E as ->. rewrite eqb_reflx. auto.
    + apply (Hnaive (ZBBin BOr l r)); [repeat split; auto|auto|split; auto|auto].
    + assert (Hs : HON -> C -> sem rho l = Some (VB true) /\ sem rho r = Some (VB true)).
      { intros h hc. specialize (HC h hc). cbn [sem sem_bop] in HC.
        destruct (sem rho l) as [[| [] |]|], (sem rho r) as [[| [] |]|]; try discriminate; auto. }
      eapply ok_bind; [apply IHr; auto; intros h hc; apply (Hs h hc)|]. intros tt0 E1. cbn beta in E1.
      eapply ok_weaken; [apply IHl; auto; intros h hc; apply (Hs h hc)|]. cbn beta. intros tt1 E2. cbn [sem]. rewrite E1, E2. auto.
  - assert (Hn : OK C (naive_assert (ZBNot e) err) (fun _ => sem rho (ZBNot e) = Some (VB true))) by (apply Hnaive; auto).
    destruct e as [| | | | | |op l r| | | | | | | |]; try exact Hn. cbn [flat_assert].
    destruct W as [[Wl [Wr Wk]] _]. destruct D as [Dl Dr].
    assert (Hnn : HON -> C -> sem rho l <> None /\ sem rho r <> None).
    { intros h hc. specialize (HC h hc). cbn [sem] in HC. destruct (sem rho l) as [[]|], (sem rho r) as [[]|]; try discriminate; split; discriminate. }
    destruct op; try exact Hn.
    + destruct Wk as [Kl Kr].
      destruct (is_zero_f l) eqn:Zl; [|destruct (is_zero_f r) eqn:Zr; [|exact Hn]].
      * destruct l; try discriminate. apply Feqb_eq in Zl. subst c.
        eapply ok_bind; [apply (Hf r C Wr Dr); intros h hc; apply (Hnn h hc)|]. intros ur [vr [Sr Hr]].
        apply (ures_KF _ _ _ _ Kr) in Hr as [b [-> [Hb _]]]. cbn [sem] in *. rewrite Sr in *.
        eapply ok_weaken; [apply ok_not_zero|].
        -- intros h hc E. specialize (HC h hc). rewrite Hb in E. rewrite E in HC. discriminate.
        -- cbn beta. intros tt0 E. rewrite Hb in E. destruct (Z.eqb_spec (fval f0) (fval b)) as [Eb|]; auto. apply F_ext in Eb. congruence.
      * destruct r; try discriminate. apply Feqb_eq in Zr. subst c.
        eapply ok_bind; [apply (Hf l C Wl Dl); intros h hc; apply (Hnn h hc)|]. intros ul [vl [Sl Hl]].
        apply (ures_KF _ _ _ _ Kl) in Hl as [b [-> [Hb _]]]. cbn [sem] in *. rewrite Sl in *.
        eapply ok_weaken; [apply ok_not_zero|].
        -- intros h hc E. specialize (HC h hc). rewrite Hb in E. rewrite E in HC. discriminate.
        -- cbn beta. intros tt0 E. rewrite Hb in E. destruct (Z.eqb_spec (fval b) (fval f0)) as [Eb|]; auto. apply F_ext in Eb. congruence.
    + destruct Wk as [al [ar [Kl [Kr [Hw [R1 R2]]]]]].
      destruct (is_zero_u l) eqn:Zl; [|destruct (is_zero_u r) eqn:Zr; [|exact Hn]].
      * destruct l; try discriminate. apply Z.eqb_eq in Zl. subst n.
        eapply ok_bind; [apply (Hf r C Wr Dr); intros h hc; apply (Hnn h hc)|]. intros ur [vr [Sr Hr]].
        apply (ures_KU _ _ _ _ _ Kr) in Hr as [y [-> Hy]]. destruct (urep_red Hreq _ _ _ R2 (proj1 Hy)) as [_ [V2 Ry]]. cbn [sem] in *. rewrite Sr in *.
        eapply ok_weaken; [apply ok_not_zero|].
        -- intros h hc E. specialize (HC h hc). rewrite E in V2. rewrite fval_f0 in V2. subst y. discriminate.
        -- cbn beta. intros tt0 E. destruct (Z.eqb_spec 0 y) as [Ey|]; auto. exfalso. apply E. apply F_ext. rewrite V2, fval_f0. auto.
      * destruct r; try discriminate. apply Z.eqb_eq in Zr. subst n.
        eapply ok_bind; [apply (Hf l C Wl Dl); intros h hc; apply (Hnn h hc)|]. intros ul [vl [Sl Hl]].
        apply (ures_KU _ _ _ _ _ Kl) in Hl as [x [-> Hx]]. destruct (urep_red Hreq _ _ _ R1 (proj1 Hx)) as [_ [V1 Rx]]. cbn [sem] in *. rewrite Sl in *.
        eapply ok_weaken; [apply ok_not_zero|].
        -- intros h hc E. specialize (HC h hc). rewrite E in V1. rewrite fval_f0 in V1. subst x. discriminate.
        -- cbn beta. intros tt0 E. destruct (Z.eqb_spec x 0) as [Ex|]; auto. exfalso. apply E. apply F_ext. rewrite V1, fval_f0. auto.
Qed.
End Assert.
