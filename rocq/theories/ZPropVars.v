(** Constant propagation: the identifiers of the result. *)
From Coq Require Import ZArith NArith List Bool Lia.
From Verif Require Import PField IR Interp Bits Flat Zir Codegen CgBase CgExpr CgProg CgWf CgEnd UintOpt UintOptProofs Panic DeadCode Source ZProp.
Import ListNotations.
Open Scope Z_scope.

Section ZPropVars.
Context {PF : PrimeField}.
Ltac ob H := match type of H with
  | obind ?m _ = Some _ => let E := fresh "E" in destruct m eqn:E; cbn [obind] in H; [|discriminate H]
  end.
(** ** Identifiers *)
Definition cst_lit (C : cenv) : Prop := forall x c, C x = Some c -> is_const c = true.
Lemma lit_novars : forall c, is_const c = true -> evars c = [].
Proof. intros c H. destruct c; try discriminate H; reflexivity. Qed.
Definition from (es : list zexp) (e : zexp) : Prop := incl (evars e) (evarss es).
Ltac ii := let z := fresh "z" in let Hz := fresh "Hz" in unfold evarss; intros z Hz; cbn [evars flat_map] in *; rewrite ?app_nil_r, ?in_app_iff in *; try tauto; contradiction.
Ltac ifs H := repeat match type of H with (if ?b then _ else _) = _ => destruct b; try discriminate H end.
Lemma pfbin_cases : forall op l r e, pfbin op l r = Some e -> e = l \/ e = r \/ (exists c, e = ZFVal c) \/ e = ZFBin op l r.
Proof. intros op l r e H. destruct op; cbn [pfbin] in H; ifs H; try (injection H as <-; eauto; fail); destruct l; try (injection H as <-; auto; fail); destruct r; injection H as <-; eauto. Qed.
Lemma pcmp_cases : forall op l r e, pcmp op l r = Some e -> (exists b, e = ZBVal b) \/ e = ZCmp op l r.
Proof. intros op l r e H. destruct op; cbn [pcmp] in H; destruct l; ifs H; try (injection H as <-; eauto; fail); destruct r; ifs H; injection H as <-; eauto. Qed.
Lemma pbbin_cases : forall op l r e, pbbin op l r = Some e -> e = l \/ e = r \/ (exists b, e = ZBVal b) \/ e = ZBBin op l r.
Proof. intros op l r e H. destruct op; cbn [pbbin] in H; ifs H; try (injection H as <-; eauto; fail); destruct l; ifs H; try (injection H as <-; eauto; fail); destruct r; ifs H; injection H as <-; eauto. Qed.
Lemma pubin_cases : forall a op l r e, pubin a op l r = Some e -> e = l \/ e = r \/ (exists n, e = ZUVal a n) \/ e = ZUBin a op l r.
Proof. intros a op l r e H. destruct op; cbn [pubin] in H; ifs H; try (injection H as <-; eauto; fail); destruct l; ifs H; try (injection H as <-; eauto; fail); destruct r; ifs H; injection H as <-; eauto. Qed.
Lemma pfbin_vars : forall op l r e, pfbin op l r = Some e -> incl (evars e) (evars l ++ evars r).
Proof. intros op l r e H. apply pfbin_cases in H as [->|[->|[[c ->]| ->]]]; ii. Qed.
Lemma pcmp_vars : forall op l r e, pcmp op l r = Some e -> incl (evars e) (evars l ++ evars r).
Proof. intros op l r e H. apply pcmp_cases in H as [[b ->]| ->]; ii. Qed.
Lemma pbbin_vars : forall op l r e, pbbin op l r = Some e -> incl (evars e) (evars l ++ evars r).
Proof. intros op l r e H. apply pbbin_cases in H as [->|[->|[[c ->]| ->]]]; ii. Qed.
Lemma pubin_vars : forall a op l r e, pubin a op l r = Some e -> incl (evars e) (evars l ++ evars r).
Proof. intros a op l r e H. apply pubin_cases in H as [->|[->|[[c ->]| ->]]]; ii. Qed.
Lemma pshl_vars : forall a x k e, pshl a x k = Some e -> incl (evars e) (evars x).
Proof. intros a x k e H. unfold pshl in H. destruct (Nat.eqb k 0); [injection H as <-; ii|]. destruct (Nat.leb _ _); [injection H as <-; ii|]. destruct x; injection H as <-; ii. Qed.
Lemma pshr_vars : forall a x k e, pshr a x k = Some e -> incl (evars e) (evars x).
Proof. intros a x k e H. unfold pshr in H. destruct (Nat.eqb k 0); [injection H as <-; ii|]. destruct (Nat.leb _ _); [injection H as <-; ii|]. destruct x; injection H as <-; ii. Qed.
(** the identifiers without a known constant *)
Definition unk (C : cenv) (l : list ident) : list ident := filter (fun y => match C y with Some _ => false | None => true end) l.
Lemma unk_app : forall C a b, unk C (a ++ b) = unk C a ++ unk C b.
Proof. intros C a b. apply filter_app. Qed.
Lemma unk_in : forall C l y, In y (unk C l) <-> In y l /\ C y = None.
Proof. intros C l y. unfold unk. rewrite filter_In. destruct (C y); intuition congruence. Qed.
Lemma evarss_F2 : forall (P : zexp -> option zexp) C es es', Forall2 (fun e e' => P e = Some e') es es' -> (forall e e', In e es -> P e = Some e' -> incl (evars e') (unk C (evars e))) -> incl (evarss es') (unk C (evarss es)).
Proof.
  induction 1 as [|e e' es es' H1 H2 IH]; intros H; [apply incl_refl|]. unfold evarss in *. cbn [flat_map]. rewrite unk_app. apply incl_app; [apply incl_appl; apply H; [left; auto|auto]|apply incl_appr, IH; intros; apply H; auto; right; auto].
Qed.
(** the result reads only identifiers which the expression reads and which have no known constant *)
Lemma prop_unk : forall e C e', cst_lit C -> prop C e = Some e' -> incl (evars e') (unk C (evars e)).
Proof.
  induction e using zexp_ind'; intros C e' HC E; cbn [prop] in E; try (injection E as <-; apply incl_refl).
  - destruct (C x) as [c|] eqn:Ec; injection E as <-; [rewrite (lit_novars c) by eauto; intros y []|cbn [evars]; intros y [<-|[]]; apply unk_in; split; [left; reflexivity|exact Ec]].
  - ob E. ob E. apply pfbin_vars in E. eapply incl_tran; [exact E|]. cbn [evars]. rewrite ?unk_app. apply incl_app; [apply incl_appl; eauto|apply incl_appr; eauto].
  - ob E. unfold ppow in E. destruct (N.eqb n 0); [injection E as <-; intros y []|]. destruct (N.eqb n 1); [injection E as <-; cbn [evars]; eauto|].
    assert (G : incl (evars z) (unk C (evars e))) by eauto. destruct z; injection E as <-; cbn [evars] in *; auto.
  - ob E. ob E. apply pcmp_vars in E. eapply incl_tran; [exact E|]. cbn [evars]. rewrite ?unk_app. apply incl_app; [apply incl_appl; eauto|apply incl_appr; eauto].
  - ob E. ob E. apply pbbin_vars in E. eapply incl_tran; [exact E|]. cbn [evars]. rewrite ?unk_app. apply incl_app; [apply incl_appl; eauto|apply incl_appr; eauto].
  - ob E. assert (G : incl (evars z) (unk C (evars e))) by eauto. unfold pbnot in E. destruct z; injection E as <-; cbn [evars] in *; auto.
  - ob E. ob E. apply pubin_vars in E. eapply incl_tran; [exact E|]. cbn [evars]. rewrite ?unk_app. apply incl_app; [apply incl_appl; eauto|apply incl_appr; eauto].
  - ob E. assert (G : incl (evars z) (unk C (evars e))) by eauto. unfold punot in E. destruct z; injection E as <-; cbn [evars] in *; auto.
  - ob E. apply pshl_vars in E. eapply incl_tran; [exact E|]. cbn [evars]. rewrite ?unk_app. eauto.
  - ob E. apply pshr_vars in E. eapply incl_tran; [exact E|]. cbn [evars]. rewrite ?unk_app. eauto.
  - ob E. cbn [evars]. rewrite ?unk_app. destruct (isb _ true); [apply incl_appr, incl_appl; eauto|]. destruct (isb _ false); [apply incl_appr, incl_appr; eauto|]. ob E. ob E.
    destruct (zexp_eqb _ _); injection E as <-; [apply incl_appr, incl_appl; eauto|]. cbn [evars]. rewrite ?unk_app. apply incl_app; [apply incl_appl; eauto|]. apply incl_appr. apply incl_app; [apply incl_appl; eauto|apply incl_appr; eauto].
  - ob E. ob E. apply mapO_inv in E1. cbn [evars]. rewrite ?unk_app. rewrite evars_go.
    assert (G : incl (evarss l) (unk C (evarss es))) by (eapply evarss_F2; [exact E1|]; intros e1 e2 Hin He; rewrite Forall_forall in H; eapply H; eauto).
    unfold psel in E. assert (G2 : incl (evars (ZSel k l z)) (unk C (evarss es) ++ unk C (evars e))) by (cbn [evars]; rewrite evars_go; apply incl_app; [apply incl_appl; auto|apply incl_appr; eauto]).
    destruct z; try (injection E as <-; exact G2). apply nth_error_In in E. apply incl_appl. eapply incl_tran; [|exact G]. intros y Hy. apply in_flat_map. eauto.
Qed.
Lemma props_unk : forall es C es', cst_lit C -> mapO (prop C) es = Some es' -> incl (evarss es') (unk C (evarss es)).
Proof. intros es C es' HC E. apply mapO_inv in E. eapply evarss_F2; [exact E|]. intros. eapply prop_unk; eauto. Qed.
Lemma prop_vars : forall e C e', cst_lit C -> prop C e = Some e' -> incl (evars e') (evars e).
Proof. intros e C e' H E y Y. apply (prop_unk e C e' H E) in Y. apply unk_in in Y. tauto. Qed.
Lemma props_vars : forall es C es', cst_lit C -> mapO (prop C) es = Some es' -> incl (evarss es') (evarss es).
Proof. intros e C e' H E y Y. apply (props_unk e C e' H E) in Y. apply unk_in in Y. tauto. Qed.
Lemma prop_none : forall e C e' y, cst_lit C -> prop C e = Some e' -> In y (evars e') -> C y = None.
Proof. intros e C e' y H E Y. apply (prop_unk e C e' H E) in Y. apply unk_in in Y. tauto. Qed.
Lemma props_none : forall e C e' y, cst_lit C -> mapO (prop C) e = Some e' -> In y (evarss e') -> C y = None.
Proof. intros e C e' y H E Y. apply (props_unk e C e' H E) in Y. apply unk_in in Y. tauto. Qed.
End ZPropVars.
