(** What the functions of zokrates_stdlib/stdlib/ecc compute (Std.v), in terms of the group of Edwards.v. *)
From Coq Require Import String Ascii.
From Coq Require Import ZArith NArith List Bool Lia Field.
From Verif Require Import PField Concrete Interp Bits Flat Zir Codegen Str Abi Typed Writes Src SrcTy Std StdRun StdSpec Edwards.
Import ListNotations.
Open Scope string_scope.
Open Scope list_scope.
Open Scope Z_scope.

Section Ec.
Context {PF : PrimeField}.
Add Field Fec : F_field_th.
Definition vpt (P : F * F) : value_ := vfs [fst P; snd P].
(** a value of the structure BabyJubJubParams *)
Record params := { pc : F; pa : F; pd : F; pma : F; pmb : F; pinf : F * F; pgu : F; pgv : F }.
Definition vparams (c : params) : value_ :=
  VStruct [("JUBJUB_C", VField (pc c)); ("JUBJUB_A", VField (pa c)); ("JUBJUB_D", VField (pd c)); ("MONT_A", VField (pma c)); ("MONT_B", VField (pmb c)); ("INFINITY", vpt (pinf c)); ("Gu", VField (pgu c)); ("Gv", VField (pgv c))].
Variable c : params.
Ltac runall := unfold arr2, mem_, eq_, dterm, fadd_, fsub_, fmul_, fdiv_, sel_, bl, fl, ul, uv, fv, iv, usub_ in *; run1; try reflexivity; try lia.
(** ** edwardsAdd *)
Lemma div_ok : forall x y : F, y <> f0 -> sem_op (OFBin FDiv) [] [VField x; VField y] = Ok (VField (fdiv x y)).
Proof. intros x y H. cbn. destruct (Feqb_spec y f0) as [E|E]; [contradiction|reflexivity]. Qed.
Theorem edadd_spec : forall k P Q, ed_defined (pd c) P Q ->
  scall std (S k) f_edadd [] [pt; pt; bjj] pt [vpt P; vpt Q; vparams c] = Ok ([], vpt (ed_sum (pa c) (pd c) P Q)).
Proof.
  intros k [u1 v1] [u2 v2] [D1 D2]. unfold ed_den in D1, D2. cbn [fst snd] in D1, D2. eapply call_here; [apply d_const; reflexivity|reflexivity|reflexivity| |].
  - do 6 (eapply exs_cons; [eapply ex_def; runall|]). eapply exs_cons; [eapply ex_def; runall|].
    + cbn. match goal with |- context [Feqb ?x f0] => destruct (Feqb_spec x f0) as [E|E] end; [contradiction|reflexivity].
    + eapply exs_cons; [eapply ex_def; runall|apply exs_nil]. cbn. match goal with |- context [Feqb ?x f0] => destruct (Feqb_spec x f0) as [E|E] end; [contradiction|reflexivity].
  - runall.
Qed.
(** division by zero: no result *)
Theorem edadd_undefined : forall k P Q, ~ ed_defined (pd c) P Q -> scall std (S k) f_edadd [] [pt; pt; bjj] pt [vpt P; vpt Q; vparams c] = Stuck.
Proof.
  intros k [u1 v1] [u2 v2] N. assert (D : std f_edadd [] [pt; pt; bjj] pt = Some edadd) by (apply d_const; reflexivity).
  unfold ed_defined, ed_den in N. cbn [fst snd] in N. cbn [scall]. rewrite D. cbn. repeat (progress change (Pos.to_nat 1) with 1%nat; cbn). change (of_Z 1) with PField.f1.
  destruct (Feqb_spec (fadd PField.f1 (fmul (fmul (fmul (fmul (pd c) u1) u2) v1) v2)) f0) as [E|E]; [reflexivity|].
  cbn. destruct (Feqb_spec (fsub PField.f1 (fmul (fmul (fmul (fmul (pd c) u1) u2) v1) v2)) f0) as [E'|E']; [reflexivity|]. exfalso. apply N. split; assumption.
Qed.
(** ** edwardsNegate *)
Theorem ednegate_spec : forall k P, scall std (S k) f_ednegate [] [pt] pt [vpt P] = Ok ([], vpt (ed_opp P)).
Proof.
  intros k [u v]. eapply call_here; [apply d_const; reflexivity|reflexivity|reflexivity| |].
  - do 2 (eapply exs_cons; [eapply ex_def; runall|]). apply exs_nil.
  - runall.
Qed.
(** ** edwardsOnCurve *)
Theorem oncurve_spec : forall k P, on_curve (pa c) (pd c) P -> scall std (S k) f_oncurve [] [pt; bjj] CBool [vpt P; vparams c] = Ok ([], VBool true).
Proof.
  intros k [u v] H. unfold on_curve in H. cbn [fst snd] in H. eapply call_here; [apply d_const; reflexivity|reflexivity|reflexivity| |].
  - do 5 (eapply exs_cons; [eapply ex_def; runall|]). eapply exs_cons; [|apply exs_nil]. eapply ex_assert. runall. cbn [sem_op map is_slit fst snd]. assert (T : forall x y : F, x = y -> Ok (VBool (value_eqb (VField x) (VField y))) = Ok (@VBool PF true)) by (intros x y ->; cbn; rewrite Z.eqb_refl; reflexivity). apply T. exact H.
  - runall.
Qed.
Theorem oncurve_rejects : forall k P, ~ on_curve (pa c) (pd c) P -> scall std (S k) f_oncurve [] [pt; bjj] CBool [vpt P; vparams c] = Failed.
Proof.
  intros k [u v] H. unfold on_curve in H. cbn [fst snd] in H. assert (D : std f_oncurve [] [pt; bjj] CBool = Some oncurve) by (apply d_const; reflexivity).
  cbn [scall]. rewrite D. cbn -[Feqb fmul fadd of_Z]. repeat (progress change (Pos.to_nat 1) with 1%nat; cbn -[Feqb fmul fadd of_Z]). change (of_Z 1) with PField.f1.
  destruct (Feqb_spec (fadd (fmul (pa c) (fmul u u)) (fmul v v)) (fadd PField.f1 (fmul (pd c) (fmul (fmul u u) (fmul v v))))) as [E|E]; [contradiction|].
  rewrite (proj2 (Z.eqb_neq _ _)); [reflexivity|]. intros K. apply E. apply F_ext. exact K.
Qed.
Section Group.
Variable s : F.
Hypothesis Ha : pa c = fmul s s.
Hypothesis Hd : forall x, fmul x x <> pd c.
Hypothesis H2 : fadd PField.f1 PField.f1 <> f0.
Notation mul := (ed_mul (pa c) (pd c)).
Notation on := (on_curve (pa c) (pd c)).
Lemma add_mul : forall k n m P, on P -> scall std (S k) f_edadd [] [pt; pt; bjj] pt [vpt (mul n P); vpt (mul m P); vparams c] = Ok ([], vpt (mul (n + m) P)).
Proof.
  intros k n m P H. rewrite (mul_add _ _ s Ha Hd H2 n m P H). apply edadd_spec. apply (ed_total _ _ s Ha Hd H2); apply (mul_on _ _ s Ha Hd H2); exact H.
Qed.
Lemma call_add_ev : forall k r x y z P Q, ev (scall std (S k)) r (call_add (iv pt x) (iv pt y) (iv bjj z)) P -> ev (scall std (S k)) r (call_add (iv pt x) (iv pt y) (iv bjj z)) Q -> P = Q.
Proof. intros k r x y z P Q A B. unfold ev in *. rewrite A in B. injection B as B. exact B. Qed.
(** ** edwardsOrderCheck: whether 8 P is not the neutral element *)
Theorem ordercheck_spec : forall k P, pc c = of_Z 8 -> on P -> exists b, scall std (S (S k)) f_ordercheck [] [pt; bjj] CBool [vpt P; vparams c] = Ok ([], VBool b) /\ (b = true <-> mul 8 P <> ed_zero).
Proof.
  intros k P H8 H. pose proof (add_mul k 1 1 P H) as A1. rewrite (mul_1 (pa c) (pd c) P) in A1. pose proof (add_mul k 2 2 P H) as A2. pose proof (add_mul k 4 4 P H) as A4.
  change (1 + 1)%nat with 2%nat in A1. change (2 + 2)%nat with 4%nat in A2. change (4 + 4)%nat with 8%nat in A4.
  generalize dependent (mul 8 P). generalize dependent (mul 4 P). generalize dependent (mul 2 P). intros P2 A1 P4 A2 P8 A4. exists (negb (Feqb (fst P8) (of_Z 0) && Feqb (snd P8) (of_Z 1))). split.
  - eapply call_here; [apply d_const; reflexivity|reflexivity|reflexivity| |].
    + eapply exs_cons; [eapply ex_def; runall|]. eapply exs_cons; [eapply ex_assert; runall; cbn [sem_op map is_slit fst snd]; rewrite H8; cbn; rewrite Z.eqb_refl; reflexivity|].
      eapply exs_cons; [eapply ex_def; eapply ev_call; [run1|unfold iv; run1|reflexivity|exact A1]|].
      eapply exs_cons; [eapply ex_def; eapply ev_call; [run1|unfold iv; run1|reflexivity|exact A2]|].
      eapply exs_cons; [eapply ex_def; eapply ev_call; [run1|unfold iv; run1|reflexivity|exact A4]|]. apply exs_nil.
    + runall.
  - change (of_Z 0) with f0. change (of_Z 1) with PField.f1. destruct P8 as [u v]. unfold ed_zero. cbn [fst snd].
    destruct (Feqb_spec u f0) as [->|E]; destruct (Feqb_spec v PField.f1) as [->|E']; cbn; split; intros G; congruence.
Qed.
(** ** edwardsScalarMult *)
Theorem scalarmult_spec : forall k P bs, pinf c = ed_zero -> length bs = 256%nat -> on P ->
  scall std (S (S k)) f_scalarmult [] [bits_ty 256; pt; bjj] pt [vbits bs; vpt P; vparams c] = Ok ([], vpt (mul (Z.to_nat (bv bs)) P)).
Proof.
  intros k P bs Hi L H.
  assert (A : forall n m, scall std (S k) f_edadd [] [pt; pt; bjj] pt [vpt (mul n P); vpt (mul m P); vparams c] = Ok ([], vpt (mul (n + m) P))) by (intros n m; apply add_mul; exact H).
  assert (B : forall n, scall std (S k) f_oncurve [] [pt; bjj] CBool [vpt (mul n P); vparams c] = Ok ([], VBool true)) by (intros n; apply oncurve_spec; apply (mul_on _ _ s Ha Hd H2); exact H).
  pose proof (mul_1 (pa c) (pd c) P) as M1. assert (M0 : mul 0 P = ed_zero) by reflexivity.
  change (mul (Z.to_nat (bv bs)) P) with ((fun n => mul n P) (Z.to_nat (bv bs))).
  assert (A' : forall n m, scall std (S k) f_edadd [] [pt; pt; bjj] pt [vpt ((fun n => mul n P) n); vpt ((fun n => mul n P) m); vparams c] = Ok ([], vpt ((fun n => mul n P) (n + m)%nat))) by exact A.
  assert (B' : forall n, scall std (S k) f_oncurve [] [pt; bjj] CBool [vpt ((fun n => mul n P) n); vparams c] = Ok ([], VBool true)) by exact B.
  change (mul 1 P) with ((fun n => mul n P) 1%nat) in M1. change (mul 0 P) with ((fun n => mul n P) 0%nat) in M0. clear A B. generalize dependent (fun n => mul n P). intros M M1 M0 A' B'.
  set (rho := rbind (rbind (fun _ => None) (map (fun q : nat * cty => src (fst q)) [(0%nat, bits_ty 256); (1%nat, pt); (2%nat, bjj)]) [vbits bs; vpt P; vparams c]) (map src []) (map (@VUint PF W32) [])).
  destruct (ex_for (scall std (S k)) (fun j r => r (src 0) = Some (vbits bs) /\ r (src 2) = Some (vparams c) /\ r (src 4) = Some (vpt (M (Z.to_nat (2 ^ j)))) /\ r (src 5) = Some (vpt (M (Z.to_nat (bv (skipn (Z.to_nat (256 - j)) bs))))))
    (rupd (rupd (rupd rho (src 3) (vpt ed_zero)) (src 4) (vpt P)) (src 5) (vpt ed_zero)) (src 6) (ul 0) (ul 256)
       [SDef (src 7) U32 (usub_ (ul 255) (uv 6));
        SDef (src 8) pt (call_add (iv pt 5) (iv pt 4) (iv bjj 2));
        SDef (src 5) pt (SCond (sel_ CBool (iv (bits_ty 256) 0) (uv 7)) (iv pt 8) (iv pt 5));
        SDef (src 4) pt (call_add (iv pt 4) (iv pt 4) (iv bjj 2))] 0 256 W32 W32) as (r' & E & P0 & P2 & P4 & P5).
  - unfold ul. run1.
  - unfold ul. run1.
  - lia.
  - split; [look|]. split; [look|]. split.
    + rewrite rupd_src by discriminate. rewrite rupd_same. change (Z.to_nat (2 ^ 0)) with 1%nat. rewrite M1. reflexivity.
    + rewrite rupd_same. replace (Z.to_nat (256 - 0)) with (length bs) by (rewrite L; reflexivity). rewrite skipn_all. change (Z.to_nat (bv [])) with 0%nat. rewrite M0. reflexivity.
  - intros j r Hj (P0 & P2 & P4 & P5).
    assert (I : (Z.to_nat (255 - j) < length bs)%nat) by lia.
    destruct (nth_bit bs _ I) as (b & B1 & B2).
    assert (W : wrap 32 (255 - j) = 255 - j) by (apply wrap32; lia).
    assert (S1 : (Z.to_nat (bv (skipn (Z.to_nat (256 - j)) bs)) + Z.to_nat (2 ^ j))%nat = Z.to_nat (2 ^ j + bv (skipn (Z.to_nat (256 - j)) bs))).
    { pose proof (bv_range (skipn (Z.to_nat (256 - j)) bs)) as R. pose proof (Z.pow_nonneg 2 j ltac:(lia)) as R2. lia. }
    assert (S2 : (Z.to_nat (2 ^ j) + Z.to_nat (2 ^ j))%nat = Z.to_nat (2 ^ (j + 1))). { rewrite Z.pow_add_r by lia. change (2 ^ 1) with 2. pose proof (Z.pow_nonneg 2 j ltac:(lia)). lia. }
    pose proof (bv_skip bs _ b B1) as K. rewrite L in K. replace (S (Z.to_nat (255 - j))) with (Z.to_nat (256 - j)) in K by lia. replace (len (256 - Z.to_nat (256 - j))) with j in K by (unfold len; lia).
    pose proof (A' (Z.to_nat (bv (skipn (Z.to_nat (256 - j)) bs))) (Z.to_nat (2 ^ j))) as C1. rewrite S1 in C1. pose proof (A' (Z.to_nat (2 ^ j)) (Z.to_nat (2 ^ j))) as C2. rewrite S2 in C2.
    replace (Z.to_nat (256 - (j + 1))) with (Z.to_nat (255 - j)) by lia. rewrite K. clear K S1 S2.
    generalize dependent (Z.to_nat (2 ^ (j + 1))). intros n4 C2. generalize dependent (Z.to_nat (2 ^ j)). intros n2 P4 C1 C2. generalize dependent (bv (skipn (Z.to_nat (256 - j)) bs)). intros z P5 C1. generalize dependent (2 ^ j). intros z2 C1.
    eexists. split.
    + eapply exs_cons; [eapply ex_def; unfold usub_, ul, uv, iv; eapply ev_op; [run1|cbn [sem_op map is_slit]; reflexivity]|].
      eapply exs_cons; [eapply ex_def; eapply ev_call; [run1|unfold iv; run1|reflexivity|exact C1]|].
      eapply exs_cons; [eapply ex_def; unfold sel_, uv, iv; eapply ev_cond; [eapply ev_sel; [run1|run1| |]|run1|run1|reflexivity]|].
      { change (uwn W32) with 32%nat. rewrite W. lia. }
      { change (uwn W32) with 32%nat. rewrite W. exact B2. }
      eapply exs_cons; [eapply ex_def; eapply ev_call; [run1|unfold iv; run1|reflexivity|exact C2]|]. apply exs_nil.
    + split; [look|]. split; [look|]. split; [look|]. rewrite rupd_src by discriminate. rewrite rupd_same. destruct b; reflexivity.
  - eapply call_here; [apply d_const; reflexivity|reflexivity|reflexivity| |].
    + eapply exs_cons; [eapply ex_def; unfold mem_, iv; run1|]. eapply exs_cons; [eapply ex_def; unfold iv; run1|]. eapply exs_cons; [eapply ex_def; unfold iv; run1|]. rewrite Hi. fold rho. eapply exs_cons; [exact E|]. eapply exs_cons; [|apply exs_nil]. eapply ex_assert. eapply ev_call; [run1|unfold iv; run1|reflexivity|exact (B' _)].
    + unfold iv. eapply ev_id. exact P5.
Qed.
End Group.
End Ec.

(** ** BabyJubJub over the scalar field of bn254: a is a square and d is not *)
From Verif Require Import Primality Fermat.
From Coq Require Import Zpow_facts.
(** ecc/babyjubjubParams.zok l.18-36 *)
Definition babyjubjub : @params bn254 :=
  {| pc := of_Z 8; pa := of_Z 168700; pd := of_Z 168696; pma := of_Z 168698; pmb := of_Z 1; pinf := (of_Z 0, of_Z 1);
     pgu := of_Z 16540640123574156134436876038791482806971768689494387082833631921987005038935; pgv := of_Z 20819045374670962167435360035096875258406992893633759881276124905556507972311 |}.
Definition sqrt_a : @F bn254 := of_Z 7214280148105020021932206872019688659210616427216992810330019057549499971851.
Lemma bjj_a : pa babyjubjub = fmul sqrt_a sqrt_a.
Proof. apply F_ext. vm_compute. reflexivity. Qed.
Lemma bjj_2 : fadd (PField.f1 : @F bn254) PField.f1 <> f0.
Proof. intros E. apply (f_equal fval) in E. vm_compute in E. discriminate E. Qed.
Lemma bjj_d : forall x, fmul x x <> pd babyjubjub.
Proof.
  apply (@not_square bn254 _ ((bn254_r - 1) / 2)).
  - vm_compute. reflexivity.
  - vm_compute. discriminate.
  - rewrite <- Zpow_mod_correct by discriminate. vm_compute. discriminate.
  - intros E. apply (f_equal fval) in E. vm_compute in E. discriminate E.
Qed.
Lemma bjj_inf : pinf babyjubjub = ed_zero.
Proof. reflexivity. Qed.
