(** Fermat's little theorem in a prime field and Euler's criterion, used to show that a given element is not a square. *)
From Coq Require Import ZArith Znumtheory Zpow_facts List Lia Ring Field Permutation.
From Verif Require Import PField Primality.
Import ListNotations.
Open Scope Z_scope.
Section Fermat.
Context {PF : PrimeField}.
Add Field Ffe : F_field_th.
Fixpoint fpw (a : F) (n : nat) : F := match n with O => PField.f1 | S n => fmul a (fpw a n) end.
Definition fprod (l : list F) : F := fold_right fmul PField.f1 l.
Lemma mul_nz : forall x y : F, x <> f0 -> y <> f0 -> fmul x y <> f0.
Proof. intros x y Hx Hy E. apply Hy. transitivity (fmul (fdiv PField.f1 x) (fmul x y)); [field; exact Hx|]. rewrite E. ring. Qed.
Lemma prod_map : forall a l, fprod (map (fmul a) l) = fmul (fpw a (length l)) (fprod l).
Proof. intros a. induction l as [|x l IH]; cbn; [ring|]. fold (fprod l). fold (fprod (map (fmul a) l)). rewrite IH. ring. Qed.
Lemma prod_perm : forall l m, Permutation l m -> fprod l = fprod m.
Proof. intros l m H. induction H as [|x l m H IH|x y l|l m n H1 IH1 H2 IH2]; [reflexivity|cbn; fold (fprod l); fold (fprod m); rewrite IH; reflexivity|cbn; ring|congruence]. Qed.
Lemma prod_nz : forall l, Forall (fun x => x <> f0) l -> fprod l <> f0.
Proof. intros l H. induction H as [|x l Hx Hl IH]; cbn; [exact F_1_neq_0|]. apply mul_nz; [exact Hx|exact IH]. Qed.
Definition units : list F := map (fun i => of_Z (Z.of_nat i)) (seq 1 (Z.to_nat (pp - 1))).
Lemma fval_small : forall z, 0 <= z < pp -> fval (of_Z z) = z.
Proof. intros z H. cbn. apply Z.mod_small. exact H. Qed.
Lemma units_in : forall x : F, In x units <-> x <> f0.
Proof.
  intros x. unfold units. rewrite in_map_iff. pose proof pp_gt1 as Hp. split.
  - intros (i & E & I) Z. rewrite Z in E. apply in_seq in I. apply (f_equal fval) in E. rewrite fval_small in E by lia. change (fval f0) with 0 in E. lia.
  - intros N. exists (Z.to_nat (fval x)). pose proof (fval_range x) as R. assert (fval x <> 0). { intros E. apply N. apply F_ext. rewrite E. reflexivity. }
    split; [|apply in_seq; lia]. apply F_ext. rewrite Z2Nat.id by lia. apply fval_small. exact R.
Qed.
Lemma units_nodup : NoDup units.
Proof.
  unfold units. pose proof pp_gt1 as Hp. assert (G : forall l, NoDup l -> (forall i, In i l -> Z.of_nat i < pp) -> NoDup (map (fun i => of_Z (Z.of_nat i)) l)).
  { induction l as [|i l IH]; intros H B; cbn; [constructor|]. inversion H as [|? ? N H']; subst. constructor; [|apply IH; [exact H'|intros j J; apply B; right; exact J]].
    rewrite in_map_iff. intros (j & E & J). apply (f_equal fval) in E. rewrite !fval_small in E by (split; [lia|apply B; first [left; reflexivity|right; exact J]]). assert (j = i) by lia. subst j. contradiction. }
  apply G; [apply seq_NoDup|]. intros i I. apply in_seq in I. lia.
Qed.
Theorem fermat : forall a : F, a <> f0 -> fpw a (Z.to_nat (pp - 1)) = PField.f1.
Proof.
  intros a Ha. assert (P : Permutation (map (fmul a) units) units).
  { apply NoDup_Permutation_bis; [|rewrite map_length; lia|].
    - apply FinFun.Injective_map_NoDup; [|apply units_nodup]. intros x y E. transitivity (fmul (fdiv PField.f1 a) (fmul a x)); [field; exact Ha|]. rewrite E. field. exact Ha.
    - intros x I. apply in_map_iff in I as (y & <- & I). apply units_in in I. apply units_in. apply mul_nz; assumption. }
  apply prod_perm in P. rewrite prod_map in P. assert (L : length units = Z.to_nat (pp - 1)) by (unfold units; rewrite map_length, seq_length; reflexivity). rewrite L in P.
  assert (N : fprod units <> f0) by (apply prod_nz; apply Forall_forall; intros x I; apply units_in; exact I).
  transitivity (fdiv (fmul (fpw a (Z.to_nat (pp - 1))) (fprod units)) (fprod units)); [field; exact N|]. rewrite P. field. exact N.
Qed.
Lemma fpw_add : forall a n m, fpw a (n + m) = fmul (fpw a n) (fpw a m).
Proof. intros a n m. induction n as [|n IH]; cbn; [ring|]. rewrite IH. ring. Qed.
Lemma fpw_sq : forall a n, fpw (fmul a a) n = fpw a (n + n).
Proof. intros a n. rewrite fpw_add. induction n as [|n IH]; cbn; [ring|]. rewrite IH. ring. Qed.
Lemma fval_fpw : forall a n, fval (fpw a n) = fval a ^ Z.of_nat n mod pp.
Proof.
  intros a n. pose proof pp_gt1 as Hp. induction n as [|n IH]; [reflexivity|]. cbn [fpw]. rewrite Nat2Z.inj_succ, Z.pow_succ_r by lia.
  transitivity ((fval a * fval (fpw a n)) mod pp); [reflexivity|]. rewrite IH. rewrite Z.mul_mod_idemp_r by lia. reflexivity.
Qed.
(** Euler's criterion: one direction *)
Theorem not_square : forall (d : F) h, pp = 2 * h + 1 -> 0 <= h -> fval d ^ h mod pp <> 1 -> d <> f0 -> forall x, fmul x x <> d.
Proof.
  intros d h Hp Hh N Hd x E. apply N. assert (X : x <> f0) by (intros Z; apply Hd; rewrite <- E, Z; ring).
  pose proof (fermat x X) as K. replace (Z.to_nat (pp - 1)) with (Z.to_nat h + Z.to_nat h)%nat in K by lia. rewrite <- fpw_sq, E in K. apply (f_equal fval) in K. rewrite fval_fpw, Z2Nat.id in K by exact Hh.
  rewrite K. cbn. apply Z.mod_small. pose proof pp_gt1. lia.
Qed.
End Fermat.
