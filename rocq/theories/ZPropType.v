(** Constant propagation keeps the program's types and shape, and removes zero exponents. *)
From Coq Require Import ZArith NArith List Bool Lia.
From Verif Require Import PField IR Interp Bits Flat Zir Codegen CgBase CgExpr CgProg CgWf CgEnd UintOpt UintOptProofs Panic DeadCode Source ZProp ZPropVars ZPropStmt.
Import ListNotations.
Open Scope Z_scope.

Section ZPropType.
Context {PF : PrimeField}.
Ltac ob H := match type of H with
  | obind ?m _ = Some _ => let E := fresh "E" in destruct m eqn:E; cbn [obind] in H; [|discriminate H]
  end.
Ltac ii := let z := fresh "z" in let Hz := fresh "Hz" in unfold evarss; intros z Hz; cbn [evars flat_map] in *; rewrite ?app_nil_r, ?in_app_iff in *; try tauto; contradiction.
Ltac ifs H := repeat match type of H with (if ?b then _ else _) = _ => destruct b; try discriminate H end.
(** ** Types *)
Definition ctyped (C : cenv) (S : senv) : Prop := forall x c, C x = Some c -> is_const c = true /\ exists t, S x = Some t /\ has_ty S c t.
Lemma lit_ty : forall c S S' t, is_const c = true -> has_ty S c t -> has_ty S' c t.
Proof. intros c S S' t L. apply has_ty_agree. rewrite lit_novars by auto. intros x []. Qed.
Lemma has_ty_wid : forall e S t, has_ty S e t -> tywid t.
Proof.
  induction e using zexp_ind'; intros S t Ht; cbn [has_ty] in Ht; try (subst t; exact I); try (destruct Ht as [-> _]; exact I);
    try (destruct Ht as [-> [W _]]; exact W); try (destruct Ht as [_ [_ W]]; exact W); try (destruct Ht as [_ [W _]]; exact W).
Qed.
Lemma pfbin_ty : forall S op l r e, has_ty S l PF_ -> has_ty S r PF_ -> pfbin op l r = Some e -> has_ty S e PF_.
Proof. intros S op l r e A B H. apply pfbin_cases in H as [->|[->|[[c ->]| ->]]]; auto; cbn [has_ty]; auto. Qed.
Lemma pcmp_ty : forall S op l r e, has_ty S (ZCmp op l r) PB_ -> pcmp op l r = Some e -> has_ty S e PB_.
Proof. intros S op l r e A H. apply pcmp_cases in H as [[c ->]| ->]; auto. reflexivity. Qed.
Lemma pbbin_ty : forall S op l r e, has_ty S l PB_ -> has_ty S r PB_ -> pbbin op l r = Some e -> has_ty S e PB_.
Proof. intros S op l r e A B H. apply pbbin_cases in H as [->|[->|[[c ->]| ->]]]; auto; cbn [has_ty]; auto. Qed.
Lemma pubin_ty : forall S a op l r e, wid (uw a) -> has_ty S l (PU_ (uw a)) -> has_ty S r (PU_ (uw a)) -> pubin a op l r = Some e -> has_ty S e (PU_ (uw a)).
Proof.
  intros S a op l r e W Hl Hr H. assert (G : forall o, has_ty S (ZUBin a o l r) (PU_ (uw a))) by (intros; cbn [has_ty]; auto). pose proof (pow2_pos (uw a)) as Hp.
  assert (V : forall n, 0 <= n < pow2 (uw a) -> has_ty S (ZUVal a n) (PU_ (uw a))) by (intros n Hn; cbn [has_ty]; auto).
  assert (M : forall n, has_ty S (ZUVal a (n mod pow2 (uw a))) (PU_ (uw a))) by (intros n; apply V, Z.mod_pos_bound; auto).
  assert (Z0 : has_ty S (ZUVal a 0) (PU_ (uw a))) by (apply V; lia). assert (Z1 : has_ty S (ZUVal a (pow2 (uw a) - 1)) (PU_ (uw a))) by (apply V; lia).
  destruct op; cbn [pubin] in H;
  repeat match type of H with (if ?b then _ else _) = _ => destruct b; [try discriminate H; injection H as <-; assumption|] end;
  try (destruct l; try (injection H as <-; apply G); destruct r; injection H as <-; first [apply G|apply M]; fail).
  - destruct l; try (injection H as <-; apply G). destruct r; try (injection H as <-; apply G). destruct (_ =? _); [discriminate H|]. injection H as <-. apply M.
  - assert (K : (if zexp_eqb l r then Some (ZUVal a 0) else Some (ZUBin a UXor l r)) = Some e -> has_ty S e (PU_ (uw a))) by (destruct (zexp_eqb l r); intros X; injection X as <-; auto).
    destruct l; auto; destruct r; auto. injection H as <-. cbn [has_ty] in Hl, Hr. destruct Hl as [El [_ Hl]]. destruct Hr as [Er [_ Hr]]. injection El as El. injection Er as Er. rewrite <- El in Hl. rewrite <- Er in Hr. apply V. apply lxor_range; auto.
  - destruct l; try (injection H as <-; apply G). destruct r; try (injection H as <-; apply G). injection H as <-. cbn [has_ty] in Hl, Hr. destruct Hl as [El [_ Hl]]. destruct Hr as [Er [_ Hr]]. injection El as El. injection Er as Er. rewrite <- El in Hl. rewrite <- Er in Hr. apply V. apply land_range; auto.
  - destruct l; try (injection H as <-; apply G). destruct r; try (injection H as <-; apply G). injection H as <-. cbn [has_ty] in Hl, Hr. destruct Hl as [El [_ Hl]]. destruct Hr as [Er [_ Hr]]. injection El as El. injection Er as Er. rewrite <- El in Hl. rewrite <- Er in Hr. apply V. apply lor_range; auto.
Qed.
Lemma pshl_ty : forall S a x k e, wid (uw a) -> wid 32 -> has_ty S x (PU_ (uw a)) -> pshl a x k = Some e -> has_ty S e (PU_ (uw a)).
Proof.
  intros S a x k e W W' Hx H. pose proof (pow2_pos (uw a)) as Hp. assert (G : has_ty S (ZShl a x k) (PU_ (uw a))) by (cbn [has_ty]; auto). unfold pshl in H. destruct (Nat.eqb k 0); [injection H as <-; auto|].
  destruct (Nat.leb _ _); [injection H as <-; cbn [has_ty]; split; auto; split; auto; lia|]. destruct x; injection H as <-; try exact G. cbn [has_ty]. split; auto. split; auto. rewrite land_mask. apply Z.mod_pos_bound. auto.
Qed.
Lemma pshr_ty : forall S a x k e, wid (uw a) -> wid 32 -> has_ty S x (PU_ (uw a)) -> pshr a x k = Some e -> has_ty S e (PU_ (uw a)).
Proof.
  intros S a x k e W W' Hx H. pose proof (pow2_pos (uw a)) as Hp. assert (G : has_ty S (ZShr a x k) (PU_ (uw a))) by (cbn [has_ty]; auto). unfold pshr in H. destruct (Nat.eqb k 0); [injection H as <-; auto|].
  destruct (Nat.leb _ _); [injection H as <-; cbn [has_ty]; split; auto; split; auto; lia|]. destruct x; injection H as <-; try exact G. cbn [has_ty] in *. destruct Hx as [Ex [_ Hx]]. injection Ex as Ex. rewrite <- Ex in Hx.
  split; auto. split; auto. rewrite Z.shiftr_div_pow2 by lia. pose proof (pow2_pos k) as Hk. unfold pow2 in *. split; [apply Z.div_pos; lia|]. apply Z.div_lt_upper_bound; [lia|]. nia.
Qed.
Lemma prop_ty : forall e S C t e', has_ty S e t -> ctyped C S -> prop C e = Some e' -> has_ty S e' t.
Proof.
  induction e using zexp_ind'; intros S C t e' Ht HC E; pose proof (has_ty_wid _ _ _ Ht) as Hwid; cbn [prop] in E; try (injection E as <-; exact Ht).
  - destruct (C x) as [c|] eqn:Ec; [|injection E as <-; exact Ht]. injection E as <-. cbn [has_ty] in Ht. destruct Ht as [_ [Ht _]]. destruct (HC x c Ec) as [_ [t' [A B]]]. rewrite Ht in A. injection A as <-. exact B.
  - cbn [has_ty] in Ht. destruct Ht as [-> [H1 H2]]. ob E. ob E. eapply pfbin_ty; [| |exact E]; eauto.
  - cbn [has_ty] in Ht. destruct Ht as [-> H1]. ob E. assert (G : has_ty S z PF_) by eauto. unfold ppow in E. destruct (N.eqb n 0); [injection E as <-; reflexivity|]. destruct (N.eqb n 1); [injection E as <-; exact G|].
    destruct z; injection E as <-; try reflexivity; cbn [has_ty]; auto.
  - cbn [has_ty] in Ht. destruct Ht as [-> Ht]. ob E. ob E. eapply pcmp_ty; [|exact E]. cbn [has_ty]. split; [reflexivity|].
    destruct op; try (destruct Ht as [A B]; split; eauto; fail); (destruct Ht as [w [A [B D]]]; exists w; split; [exact A|]; split; eauto).
  - cbn [has_ty] in Ht. destruct Ht as [-> [H1 H2]]. ob E. ob E. eapply pbbin_ty; [| |exact E]; eauto.
  - cbn [has_ty] in Ht. destruct Ht as [-> H1]. ob E. assert (G : has_ty S z PB_) by eauto. unfold pbnot in E. destruct z; injection E as <-; try reflexivity; cbn [has_ty]; auto.
  - cbn [has_ty] in Ht. destruct Ht as [-> [W [H1 H2]]]. ob E. ob E. eapply pubin_ty; [exact W| | |exact E]; eauto.
  - cbn [has_ty] in Ht. destruct Ht as [-> [W H1]]. ob E. assert (G : has_ty S z (PU_ (uw a))) by eauto. pose proof (pow2_pos (uw a)) as Hp. unfold punot in E. destruct z; injection E as <-; try (cbn [has_ty] in *; auto; fail).
    cbn [has_ty]. split; auto. split; auto. rewrite land_mask. apply Z.mod_pos_bound. auto.
  - cbn [has_ty] in Ht. destruct Ht as [-> [W [W' H1]]]. ob E. eapply pshl_ty; [exact W|exact W'| |exact E]; eauto.
  - cbn [has_ty] in Ht. destruct Ht as [-> [W [W' H1]]]. ob E. eapply pshr_ty; [exact W|exact W'| |exact E]; eauto.
  - cbn [has_ty] in Ht. destruct Ht as [T [W [H0 [H1 H2]]]]. ob E. destruct (isb _ true); [eauto|]. destruct (isb _ false); [eauto|]. ob E. ob E.
    destruct (zexp_eqb _ _); injection E as <-; [eauto|]. cbn [has_ty]. split; auto. split; auto. split; eauto.
  - cbn [has_ty] in Ht. destruct Ht as [T [W [W' [Hi [N [L Hes]]]]]]. apply has_sel_go in Hes. ob E. ob E. apply mapO_inv in E1.
    assert (G : Forall (fun e => has_ty S e t) l).
    { clear - H Hes E1 HC. induction E1; constructor; inversion H; inversion Hes; subst; eauto. }
    assert (Ln : length l = length es) by (clear - E1; induction E1; cbn; auto).
    assert (G2 : has_ty S (ZSel k l z) t).
    { cbn [has_ty]. split; auto. split; auto. split; auto. split; [eauto|]. split; [intros X; subst l; destruct es; [congruence|discriminate Ln]|]. split; [rewrite Ln; auto|]. apply has_sel_go. exact G. }
    unfold psel in E. destruct z; try (injection E as <-; exact G2). apply nth_error_In in E. rewrite Forall_forall in G. auto.
Qed.
Lemma props_ty : forall es ts S C es', Forall2 (has_ty S) es ts -> ctyped C S -> mapO (prop C) es = Some es' -> Forall2 (has_ty S) es' ts.
Proof.
  intros es ts S C es' H HC E. apply mapO_inv in E. revert ts H. induction E; intros ts H0; inversion H0; subst; constructor; eauto using prop_ty.
Qed.

(** ** No zero exponents *)
Definition np (e : zexp) : Prop := no_pow0 e /\ is_pow0 e = false.
Ltac npx := unfold np in *; cbn [no_pow0 is_pow0] in *; tauto.
Lemma pfbin_np : forall op l r e, np l -> np r -> pfbin op l r = Some e -> np e.
Proof. intros op l r e A B H. apply pfbin_cases in H as [->|[->|[[c ->]| ->]]]; npx. Qed.
Lemma pcmp_np : forall op l r e, np l -> np r -> pcmp op l r = Some e -> np e.
Proof. intros op l r e A B H. apply pcmp_cases in H as [[b ->]| ->]; npx. Qed.
Lemma pbbin_np : forall op l r e, np l -> np r -> pbbin op l r = Some e -> np e.
Proof. intros op l r e A B H. apply pbbin_cases in H as [->|[->|[[c ->]| ->]]]; npx. Qed.
Lemma pubin_np : forall a op l r e, np l -> np r -> pubin a op l r = Some e -> np e.
Proof. intros a op l r e A B H. apply pubin_cases in H as [->|[->|[[c ->]| ->]]]; npx. Qed.
Definition cst_lit_np : forall c, is_const c = true -> np c.
Proof. intros c H. destruct c; try discriminate H; npx. Qed.
Lemma prop_np : forall e C e', cst_lit C -> prop C e = Some e' -> np e'.
Proof.
  induction e using zexp_ind'; intros C e' HC E; cbn [prop] in E; try (injection E as <-; npx).
  - destruct (C x) as [c|] eqn:Ec; injection E as <-; [apply cst_lit_np; eauto|npx].
  - ob E. ob E. eapply pfbin_np; [| |exact E]; eauto.
  - ob E. assert (G : np z) by eauto. unfold ppow in E. destruct (N.eqb_spec n 0) as [|Hn]; [injection E as <-; npx|]. destruct (N.eqb n 1); [injection E as <-; exact G|].
    assert (G2 : np (ZPow z n)) by (unfold np in *; cbn [no_pow0 is_pow0]; split; [tauto|destruct n; [congruence|reflexivity]]). destruct z; injection E as <-; try exact G2; npx.
  - ob E. ob E. eapply pcmp_np; [| |exact E]; eauto.
  - ob E. ob E. eapply pbbin_np; [| |exact E]; eauto.
  - ob E. assert (G : np z) by eauto. unfold pbnot in E. destruct z; injection E as <-; npx.
  - ob E. ob E. eapply pubin_np; [| |exact E]; eauto.
  - ob E. assert (G : np z) by eauto. unfold punot in E. destruct z; injection E as <-; npx.
  - ob E. assert (G : np z) by eauto. unfold pshl in E. destruct (Nat.eqb k 0); [injection E as <-; exact G|]. destruct (Nat.leb _ _); [injection E as <-; npx|]. destruct z; injection E as <-; npx.
  - ob E. assert (G : np z) by eauto. unfold pshr in E. destruct (Nat.eqb k 0); [injection E as <-; exact G|]. destruct (Nat.leb _ _); [injection E as <-; npx|]. destruct z; injection E as <-; npx.
  - ob E. assert (G : np z) by eauto. destruct (isb _ true); [eauto|]. destruct (isb _ false); [eauto|]. ob E. ob E. assert (G1 : np z0) by eauto. assert (G2 : np z1) by eauto. destruct (zexp_eqb _ _); injection E as <-; npx.
  - ob E. ob E. apply mapO_inv in E1. assert (G : np z) by eauto.
    assert (Gl : Forall np l) by (clear - H E1 HC; induction E1; constructor; inversion H; subst; eauto).
    assert (G2 : np (ZSel k l z)). { unfold np in *. cbn [no_pow0 is_pow0]. rewrite no_pow0_go. split; [|reflexivity]. split; [tauto|]. eapply Forall_impl; [|exact Gl]. tauto. }
    unfold psel in E. destruct z; try (injection E as <-; exact G2). apply nth_error_In in E. rewrite Forall_forall in Gl. auto.
Qed.
Lemma props_np : forall es C es', cst_lit C -> mapO (prop C) es = Some es' -> Forall no_pow0 es'.
Proof. intros es C es' HC E. apply mapO_inv in E. induction E; constructor; auto. eapply prop_np; eauto. Qed.

(** ** Statements: shape *)
Record shape (s : list zstmt) (l : list zstmt) : Prop := mkShape {
  sh_defs : incl (defss l) (defss s); sh_uses : incl (usess l) (usess s); sh_scoped : Forall scoped s -> Forall scoped l; sh_noret : Forall noret s -> Forall noret l;
  sh_cast : Forall no_cast s -> Forall no_cast l; sh_np : Forall no_pow0_stmt l; sh_logs : Forall nolog s -> Forall nolog l }.
Lemma shape_nil : forall s, shape s [].
Proof. intros s. split; try (intros x []); constructor. Qed.
Lemma shape_app : forall a b l m, shape a l -> shape b m -> shape (a ++ b) (l ++ m).
Proof.
  intros a b l m H K. destruct H, K. split; rewrite ?defss_app, ?usess_app, ?Forall_app; try tauto.
  - apply incl_app; [apply incl_appl; auto|apply incl_appr; auto].
  - apply incl_app; [apply incl_appl; auto|apply incl_appr; auto].
Qed.
Lemma shape_stmts_of : forall l, Forall (fun s => forall C C' l', cst_lit C -> prop_stmt C s = Some (C', l') -> cst_lit C' /\ shape [s] l') l ->
  forall C C' l', cst_lit C -> prop_stmts C l = Some (C', l') -> cst_lit C' /\ shape l l'.
Proof.
  induction 1 as [|s r Hs Hr IH]; intros C C' l' HC E; cbn [prop_stmts] in E; [injection E as <- <-; split; [auto|apply shape_nil]|].
  ob E. destruct p as [C1 l1]. cbn [fst snd] in E. ob E. destruct p as [C2 l2]. injection E as <- <-. destruct (Hs _ _ _ HC E0) as [A1 A2]. destruct (IH _ _ _ A1 E1) as [B1 B2].
  cbn [fst snd]. split; [exact B1|]. apply (shape_app [s] r); auto.
Qed.
Lemma cdels_sub : forall xs C y c, cdels C xs y = Some c -> C y = Some c /\ ~ In y xs.
Proof.
  unfold cdels. induction xs as [|x xs IH]; intros C y c H; cbn [fold_left] in H; [auto|]. apply IH in H as [H1 H2]. unfold cdel in H1. destruct (Z.eqb_spec y x); [discriminate H1|]. split; [exact H1|]. intros [X|X]; congruence.
Qed.
Ltac f1 := intros; apply Forall_cons; [first [exact I|assumption|auto]|apply Forall_nil].
Lemma shape_stmt : forall s C C' l', cst_lit C -> prop_stmt C s = Some (C', l') -> cst_lit C' /\ shape [s] l'.
Proof.
  intros s. induction s using zstmt_ind'; intros C C' l' HC E.
  - cbn [prop_stmt] in E. ob E. injection E as <- <-. split; [exact HC|]. pose proof (props_vars _ _ _ HC E0). pose proof (props_np _ _ _ HC E0).
    split; try (f1; fail); [apply incl_refl|cbn [usess flat_map uses]; rewrite !app_nil_r; auto|intros X; inversion X; contradiction].
  - cbn [prop_stmt] in E. ob E. pose proof (prop_vars _ _ _ HC E0) as V. pose proof (prop_np _ _ _ HC E0) as [N _].
    destruct (is_const z) eqn:Ic; injection E as <- <-.
    + split; [|apply shape_nil]. intros y c Hc. unfold cadd in Hc. destruct (y =? x); [congruence|eauto].
    + split; [intros y c Hc; unfold cdel in Hc; destruct (y =? x); [discriminate Hc|eauto]|]. split; try (f1; fail); [apply incl_refl|cbn [usess flat_map uses]; rewrite !app_nil_r; auto].
  - rewrite prop_if in E. ob E. pose proof (prop_vars _ _ _ HC E0) as V. pose proof (prop_np _ _ _ HC E0) as [N _].
    assert (Ud : defss [ZIf c a b] = defss a ++ defss b) by (cbn [defss flat_map defs]; rewrite !defs_go, app_nil_r; reflexivity).
    assert (Uu : usess [ZIf c a b] = evars c ++ usess a ++ usess b) by (cbn [usess flat_map uses]; rewrite !uses_go, app_nil_r; reflexivity).
    assert (Us : Forall scoped [ZIf c a b] -> (forall x, In x (defss a) -> ~ In x (usess b)) /\ Forall scoped a /\ Forall scoped b) by (intros X; inversion X as [|? ? Y]; cbn [scoped] in Y; rewrite !scoped_go in Y; exact Y).
    assert (Ur : Forall noret [ZIf c a b] -> Forall noret a /\ Forall noret b) by (intros X; inversion X as [|? ? Y]; cbn [noret] in Y; rewrite !noret_go in Y; exact Y).
    assert (Uc : Forall no_cast [ZIf c a b] -> Forall no_cast a /\ Forall no_cast b) by (intros X; inversion X as [|? ? Y]; cbn [no_cast] in Y; rewrite !no_cast_go in Y; exact Y).
    assert (Ul : Forall nolog [ZIf c a b] -> Forall nolog a /\ Forall nolog b) by (intros X; inversion X as [|? ? Y]; cbn [nolog] in Y; rewrite !nolog_go in Y; exact Y).
    destruct (isb _ true); [|destruct (isb _ false)].
    + destruct (shape_stmts_of _ H _ _ _ HC E) as [A1 A2]. split; [exact A1|]. destruct A2. split; try tauto; [rewrite Ud; apply incl_appl; auto|rewrite Uu; apply incl_appr, incl_appl; auto].
    + destruct (shape_stmts_of _ H0 _ _ _ HC E) as [A1 A2]. split; [exact A1|]. destruct A2. split; try tauto; [rewrite Ud; apply incl_appr; auto|rewrite Uu; apply incl_appr, incl_appr; auto].
    + ob E. destruct p as [C1 l1]. cbn [fst snd] in E. ob E. destruct p as [C2 l2]. cbn [fst snd] in E. injection E as <- <-.
      destruct (shape_stmts_of _ H _ _ _ HC E1) as [A1 A2]. destruct (shape_stmts_of _ H0 _ _ _ A1 E2) as [B1 B2]. split; [exact B1|]. destruct A2, B2.
      split.
      * rewrite Ud. cbn [defss flat_map defs]. rewrite !defs_go, app_nil_r. apply incl_app; [apply incl_appl; auto|apply incl_appr; auto].
      * rewrite Uu. cbn [usess flat_map uses]. rewrite !uses_go, app_nil_r. apply incl_app; [apply incl_appl; auto|]. apply incl_appr. apply incl_app; [apply incl_appl; auto|apply incl_appr; auto].
      * intros X. apply Us in X as [X1 [X2 X3]]. constructor; [|constructor]. cbn [scoped]. rewrite !scoped_go. split; [intros x Hx Hy; apply (X1 x); auto|tauto].
      * intros X. apply Ur in X. constructor; [|constructor]. cbn [noret]. rewrite !noret_go. tauto.
      * intros X. apply Uc in X. constructor; [|constructor]. cbn [no_cast]. rewrite !no_cast_go. tauto.
      * constructor; [|constructor]. cbn [no_pow0_stmt]. rewrite !no_pow0_stmt_go. tauto.
      * intros X. apply Ul in X. constructor; [|constructor]. cbn [nolog]. rewrite !nolog_go. tauto.
  - cbn [prop_stmt] in E. ob E. pose proof (prop_vars _ _ _ HC E0) as V. pose proof (prop_np _ _ _ HC E0) as [N _].
    destruct (isb _ true); [injection E as <- <-; split; [exact HC|apply shape_nil]|]. destruct (isb _ false); [discriminate E|]. injection E as <- <-. split; [exact HC|].
    split; try (f1; fail); [apply incl_refl|cbn [usess flat_map uses]; rewrite !app_nil_r; auto].
  - cbn [prop_stmt] in E. ob E. injection E as <- <-. assert (HC' : cst_lit (cdels C xs)) by (intros y c Hc; apply cdels_sub in Hc as [Hc _]; eauto). split; [exact HC'|].
    pose proof (props_vars _ _ _ HC' E0). pose proof (props_np _ _ _ HC' E0).
    split; try (f1; fail); [apply incl_refl|cbn [usess flat_map uses]; rewrite !app_nil_r; auto|]. intros X. inversion X; subst. constructor; [|constructor]. assumption.
  - cbn [prop_stmt] in E. ob E. injection E as <- <-. split; [exact HC|]. pose proof (props_vars _ _ _ HC E0). pose proof (props_np _ _ _ HC E0).
    split; try (f1; fail); [apply incl_refl|cbn [usess flat_map uses]; rewrite !app_nil_r; auto|]. intros X. inversion X. contradiction.
Qed.
Lemma shape_stmts : forall l C C' l', cst_lit C -> prop_stmts C l = Some (C', l') -> cst_lit C' /\ shape l l'.
Proof. intros l. apply shape_stmts_of. apply Forall_forall. intros s _. apply shape_stmt. Qed.
Lemma empty_lit : cst_lit (fun _ => None).
Proof. intros x c H. discriminate H. Qed.
Lemma prop_stmts_app : forall a b C C' l, prop_stmts C (a ++ b) = Some (C', l) -> exists C1 l1 l2, prop_stmts C a = Some (C1, l1) /\ prop_stmts C1 b = Some (C', l2) /\ l = l1 ++ l2.
Proof.
  induction a as [|s r IH]; intros b C C' l E; [exists C, [], l; auto|]. cbn [app prop_stmts] in E. ob E. destruct p as [C1 l1]. cbn [fst snd] in E. ob E. destruct p as [C2 l2]. cbn [fst snd] in E. injection E as <- <-.
  destruct (IH _ _ _ _ E1) as [C3 [m1 [m2 [X [Y ->]]]]]. exists C3, (l1 ++ m1), m2. cbn [prop_stmts]. rewrite E0. cbn [obind fst snd]. rewrite X. cbn [obind fst snd]. split; auto. split; auto. apply app_assoc.
Qed.
Theorem propagate_shape : forall p p', propagate p = Some p' -> zargs p' = zargs p /\ zret p' = zret p /\ no_pow0_prog p' /\
  (scoped_prog p -> scoped_prog p') /\ (no_cast_prog p -> no_cast_prog p') /\ (ends_return p -> ends_return p').
Proof.
  intros p p' E. unfold propagate in E. ob E. destruct p0 as [C' l]. injection E as <-. destruct (shape_stmts _ _ _ _ empty_lit E0) as [_ Sh]. destruct Sh. cbn [zargs zret snd]. split; auto. split; auto.
  split; [assumption|]. split; [assumption|]. split; [assumption|]. intros [ss [es [B [L R]]]]. rewrite B in E0. apply prop_stmts_app in E0 as [C1 [l1 [l2 [X [Y ->]]]]].
  cbn [prop_stmts prop_stmt] in Y. ob Y. ob E. injection E as <-. cbn [fst snd] in Y. injection Y as _ <-. exists l1, l. cbn [zbody app]. split; [reflexivity|]. split.
  - cbn [zret]. rewrite <- L. apply mapO_inv in E0. clear - E0. induction E0; cbn; auto.
  - destruct (shape_stmts _ _ _ _ empty_lit X) as [_ Sh]. destruct Sh. auto.
Qed.

(** ** Statements: types *)
Lemma sty_frames_of : forall l, Forall (fun s => forall S S1, sty_stmt S s S1 -> (forall x, ~ In x (defs s) -> S1 x = S x) /\ (forall x, S1 x = None -> S x = None)) l ->
  forall S S1, sty_stmts S l S1 -> (forall x, ~ In x (defss l) -> S1 x = S x) /\ (forall x, S1 x = None -> S x = None).
Proof.
  induction 1 as [|s r Hs Hr IH]; intros S S1 T; inversion T; subst; [auto|]. match goal with A : sty_stmt _ _ _, B : sty_stmts _ _ _ |- _ => destruct (Hs _ _ A) as [A1 A2]; destruct (IH _ _ B) as [B1 B2] end.
  cbn [defss flat_map]. split; [|auto]. intros x Hx. rewrite in_app_iff in Hx. rewrite B1, A1; auto.
Qed.
Lemma sty_frame : forall s S S1, sty_stmt S s S1 -> (forall x, ~ In x (defs s) -> S1 x = S x) /\ (forall x, S1 x = None -> S x = None).
Proof.
  intros s. induction s using zstmt_ind'; intros S S1 T; inversion T; subst; auto.
  - split; intros y Hy; unfold supd in *; destruct (Z.eqb_spec y x); auto; [exfalso; apply Hy; left; auto|discriminate Hy].
  - match goal with A : sty_stmts _ a _, B : sty_stmts _ b _ |- _ => destruct (sty_frames_of _ H _ _ A) as [A1 A2]; destruct (sty_frames_of _ H0 _ _ B) as [B1 B2] end.
    cbn [defs]. rewrite !defs_go. split; [|auto]. intros x Hx. rewrite in_app_iff in Hx. rewrite B1, A1; auto.
  - split; [intros y Hy; apply supds_other; exact Hy|intros y Hy; eapply supds_none; eauto].
Qed.
Lemma sty_frames : forall l S S1, sty_stmts S l S1 -> (forall x, ~ In x (defss l) -> S1 x = S x) /\ (forall x, S1 x = None -> S x = None).
Proof. intros l. apply sty_frames_of. apply Forall_forall. intros s _. apply sty_frame. Qed.
Definition csub (C : cenv) (Dom : list ident) : Prop := forall x c, C x = Some c -> In x Dom.
Definition agl (C : cenv) (D : list ident) (S S' : senv) : Prop := agree_t (fun x => In x D /\ C x = None) S S'.
Lemma ctyped_lit : forall C S, ctyped C S -> cst_lit C.
Proof. intros C S H x c E. apply (H x c E). Qed.
Definition tygood (P : cenv -> option (cenv * list zstmt)) (ds : list ident) (fr : list ident -> Prop) (ty : senv -> senv -> Prop) : Prop :=
  forall S S1 C Dom C' l', ty S S1 -> ctyped C S -> csub C Dom -> fr Dom -> P C = Some (C', l') ->
  ctyped C' S1 /\ csub C' (ds ++ Dom) /\ incl (defss l') ds /\
    forall D S', agl C D S S' -> incl D Dom -> reads_oks D l' = true -> exists S1', sty_stmts S' l' S1' /\ agl C' (defss l' ++ D) S1 S1'.
Lemma tygood_stmts_of : forall l, Forall (fun s => tygood (fun C => prop_stmt C s) (defs s) (fun Dom => anew Dom s) (fun S S1 => sty_stmt S s S1)) l ->
  tygood (fun C => prop_stmts C l) (defss l) (fun Dom => anews Dom l) (fun S S1 => sty_stmts S l S1).
Proof.
  induction 1 as [|s r Hs Hr IH]; intros S S1 C Dom C' l' T Hc Hs' Hf E; cbn [prop_stmts] in E.
  - injection E as <- <-. inversion T; subst. split; [exact Hc|]. split; [exact Hs'|]. split; [apply incl_refl|]. intros D S' Ha _ _. exists S'. split; [constructor|exact Ha].
  - inversion T as [|? ? ? S2 ? T1 T2]; subst. cbn [defss flat_map] in *. fold (defss r) in *. cbn [anews] in Hf. destruct Hf as [Hf1 Hf2].
    ob E. destruct p as [C2 l2]. cbn [fst snd] in E. ob E. destruct p as [C3 l3]. cbn [fst snd] in E. injection E as <- <-.
    destruct (Hs S S2 C Dom C2 l2) as [A1 [A2 [A3 A4]]]; auto.
    destruct (IH S2 S1 C2 (defs s ++ Dom) C3 l3) as [B1 [B2 [B3 B4]]]; auto.
    split; [exact B1|]. split; [intros x c X; apply B2 in X; rewrite !in_app_iff in *; tauto|]. rewrite defss_app. split; [apply incl_app; [apply incl_appl; auto|apply incl_appr; auto]|].
    intros D S' Ha Hi Hr'. apply reads_oks_app in Hr' as [R1 R2]. destruct (A4 D S' Ha Hi R1) as [S2' [F1 F2]]. destruct (B4 (defss l2 ++ D) S2' F2) as [S1' [G1 G2]]; auto.
    { apply incl_app; [apply incl_appl; auto|apply incl_appr; auto]. }
    exists S1'. split; [eapply sty_app; eauto|]. eapply agree_sub; [exact G2|]. intros x Hx. cbn beta in *. rewrite !in_app_iff in *. tauto.
Qed.
Lemma ctyped_mono : forall C S S1, ctyped C S -> (forall x c, C x = Some c -> S1 x = S x) -> ctyped C S1.
Proof. intros C S S1 H K x c Hc. destruct (H x c Hc) as [L [t [A B]]]. split; auto. exists t. rewrite (K x c Hc). split; auto. eapply lit_ty; eauto. Qed.
Lemma tygood_stmt : forall s, tygood (fun C => prop_stmt C s) (defs s) (fun Dom => anew Dom s) (fun S S1 => sty_stmt S s S1).
Proof.
  intros s. induction s using zstmt_ind'; intros S S1 C Dom C' l' T Hc Hs Hf E; pose proof (ctyped_lit _ _ Hc) as HL; inversion T; subst; cbn beta in E.
  - cbn [prop_stmt] in E. ob E. injection E as <- <-. split; [exact Hc|]. split; [exact Hs|]. split; [apply incl_refl|]. intros D S' [Ha Hb] Hi Hr. cbn [reads_oks reads_ok] in Hr. rewrite andb_true_r in Hr. apply inclb_ok in Hr.
    exists S'. split; [|split; auto]. apply sty_one. econstructor. eapply has_tys_agree; [|eapply props_ty; eauto]. intros y Hy. apply Ha. split; [apply Hr, Hy|eapply props_none; eauto].
  - cbn [prop_stmt] in E. ob E. assert (Tz : has_ty S z t) by (eapply prop_ty; eauto).
    destruct (is_const z) eqn:Ic; injection E as <- <-.
    + split; [|split; [|split; [intros y []|]]].
      * intros y c Y. unfold cadd in Y. unfold supd at 1. destruct (Z.eqb_spec y x); [injection Y as <-; split; [exact Ic|]; exists t; split; [reflexivity|eapply lit_ty; eauto]|].
        destruct (Hc y c Y) as [L [t' [A B]]]. split; auto. exists t'. split; auto. eapply lit_ty; eauto.
      * intros y c Y. unfold cadd in Y. destruct (Z.eqb_spec y x); [left; auto|right; eauto].
      * intros D S' [Ha Hb] Hi _. exists S'. split; [constructor|]. split.
        -- intros y [Hy Hn]. unfold supd, cadd in *. destruct (Z.eqb_spec y x) as [E|]; [discriminate Hn|apply Ha; split; [exact Hy|exact Hn]].
        -- intros y Hy. unfold supd in Hy. destruct (y =? x); [discriminate Hy|auto].
    + split; [|split; [|split; [apply incl_refl|]]].
      * intros y c Y. unfold cdel in Y. unfold supd at 1. destruct (Z.eqb_spec y x); [discriminate Y|]. destruct (Hc y c Y) as [L [t' [A B]]]. split; auto. exists t'. split; auto. eapply lit_ty; eauto.
      * intros y c Y. unfold cdel in Y. destruct (Z.eqb_spec y x); [discriminate Y|right; eauto].
      * intros D S' [Ha Hb] Hi Hr. cbn [reads_oks reads_ok] in Hr. rewrite andb_true_r in Hr. apply inclb_ok in Hr. exists (supd S' x t). split; [apply sty_one; constructor; eapply has_ty_agree; [|exact Tz]; intros y Hy; apply Ha; split; [apply Hr, Hy|eapply prop_none; eauto]|].
        split; [|intros y Hy; unfold supd in *; destruct (Z.eqb_spec y x); [discriminate Hy|auto]]. intros y [Hy Hn]. unfold supd, cdel in *. destruct (Z.eqb_spec y x); [reflexivity|]. apply Ha. split; [|exact Hn]. cbn in Hy. destruct Hy; [congruence|auto].
  - rewrite prop_if in E. ob E. match goal with A : sty_stmts S a ?s |- _ => rename s into S2 end.
    match goal with A : sty_stmts S a S2, B : sty_stmts S2 b S1 |- _ => rename A into Ta; rename B into Tb end.
    pose proof (tygood_stmts_of _ H) as Ga. pose proof (tygood_stmts_of _ H0) as Gb.
    cbn [anew] in Hf. destruct Hf as [Hd Hn]. cbn [defs] in *. rewrite !defs_go in *. apply NoDup_app_inv in Hn as [Hn1 [Hn2 Hn3]].
    assert (Da : disj (defss a) Dom) by (intros x Hx; apply Hd, in_or_app; auto). assert (Db : disj (defss b) Dom) by (intros x Hx; apply Hd, in_or_app; auto).
    assert (Dba : disj (defss b) (defss a ++ Dom)). { intros x Hx Hy. apply in_app_or in Hy as [Hy|Hy]; [exact (Hn3 x Hy Hx)|exact (Db x Hx Hy)]. }
    assert (Fa : anews Dom a) by (apply once_anews; assumption). assert (Fb : anews (defss a ++ Dom) b) by (apply once_anews; assumption).
    destruct (sty_frames _ _ _ Ta) as [Fa1 Fa2]. destruct (sty_frames _ _ _ Tb) as [Fb1 Fb2].
    destruct (isb _ true); [|destruct (isb _ false)].
    + destruct (Ga S S2 C Dom C' l') as [A1 [A2 [A3 A4]]]; auto. assert (K : forall x, In x (defss a ++ Dom) -> S1 x = S2 x) by (intros x Hx; apply Fb1; intros Y; exact (Dba x Y Hx)).
      split; [eapply ctyped_mono; [exact A1|]; eauto|]. split; [intros x k X; apply A2 in X; rewrite !in_app_iff in *; tauto|]. split; [apply incl_appl; auto|].
      intros D S' Ha Hi Hr. destruct (A4 D S' Ha Hi Hr) as [S1' [G1 [G2 G3]]]. exists S1'. split; [exact G1|]. split; [|auto]. intros x [Hx Hm]. rewrite G2 by (split; assumption). symmetry. apply K. rewrite in_app_iff in *. destruct Hx; auto.
    + assert (K : forall x, In x Dom -> S2 x = S x) by (intros x Hx; apply Fa1; intros Y; exact (Da x Y Hx)).
      destruct (Gb S2 S1 C (defss a ++ Dom) C' l') as [A1 [A2 [A3 A4]]]; auto. { eapply ctyped_mono; [exact Hc|]. eauto. } { intros x k X. apply in_or_app. right. eauto. }
      split; [exact A1|]. split; [intros x k X; apply A2 in X; rewrite !in_app_iff in *; tauto|]. split; [apply incl_appr; auto|].
      intros D S' [Ha Hb] Hi Hr. apply (A4 D S'); auto; [|apply incl_appr; auto]. split; [|auto]. intros x [Hx Hm]. rewrite K by auto. auto.
    + ob E. destruct p as [C2 l2]. cbn [fst snd] in E. ob E. destruct p as [C3 l3]. cbn [fst snd] in E. injection E as <- <-.
      destruct (Ga S S2 C Dom C2 l2) as [A1 [A2 [A3 A4]]]; auto. destruct (Gb S2 S1 C2 (defss a ++ Dom) C3 l3) as [B1 [B2 [B3 B4]]]; auto.
      assert (Ed : defss [ZIf z l2 l3] = defss l2 ++ defss l3) by (cbn [defss flat_map defs]; rewrite !defs_go, app_nil_r; reflexivity). rewrite Ed.
      split; [exact B1|]. split; [intros x k X; apply B2 in X; rewrite !in_app_iff in *; tauto|]. split; [apply incl_app; [apply incl_appl; auto|apply incl_appr; auto]|].
      intros D S' Ha Hi Hr. cbn [reads_oks] in Hr. rewrite andb_true_r, reads_if in Hr. apply andb_prop in Hr as [Hr Hr3]. apply andb_prop in Hr as [Hr1 Hr2]. apply inclb_ok in Hr1.
      destruct (A4 D S' Ha Hi Hr2) as [S2' [F1 F2]]. destruct (B4 (defss l2 ++ D) S2' F2) as [S1' [G1 G2]]; auto. { apply incl_app; [apply incl_appl; auto|apply incl_appr; auto]. }
      exists S1'. split; [apply sty_one; econstructor; [|exact F1|exact G1]|eapply agree_sub; [exact G2|]; intros x Hx; cbn beta in *; rewrite !in_app_iff in *; tauto].
      destruct Ha as [Ha _]. eapply has_ty_agree; [|eapply prop_ty; eauto]. intros y Hy. apply Ha. split; [apply Hr1, Hy|eapply prop_none; eauto].
  - cbn [prop_stmt] in E. ob E. destruct (isb _ true); [|destruct (isb _ false); [discriminate E|]]; injection E as <- <-.
    + split; [exact Hc|]. split; [exact Hs|]. split; [intros y []|]. intros D S' Ha _ _. exists S'. split; [constructor|exact Ha].
    + split; [exact Hc|]. split; [exact Hs|]. split; [intros y []|]. intros D S' [Ha Hb] Hi Hr. cbn [reads_oks reads_ok] in Hr. rewrite andb_true_r in Hr. apply inclb_ok in Hr.
      exists S'. split; [|split; auto]. apply sty_one. constructor. eapply has_ty_agree; [|eapply prop_ty; eauto]. intros y Hy. apply Ha. split; [apply Hr, Hy|eapply prop_none; eauto].
  - cbn [prop_stmt] in E. ob E. injection E as <- <-. assert (Hc0 : ctyped (cdels C xs) S) by (intros y c Y; apply cdels_sub in Y as [Y _]; auto).
    split; [|split; [|split; [cbn; rewrite app_nil_r; apply incl_refl|]]].
    + eapply ctyped_mono; [exact Hc0|]. intros y c Y. apply cdels_sub in Y as [_ Y]. apply supds_other. exact Y.
    + intros y c Y. apply cdels_sub in Y as [Y _]. apply in_or_app. right. eauto.
    + intros D S' Ha Hi Hr. pose proof Ha as [Ha1 Hb1]. cbn [reads_oks reads_ok] in Hr. rewrite andb_true_r in Hr. apply inclb_ok in Hr. exists (supds S' xs (embed_out em)). split.
      * apply sty_one. constructor; auto; [eapply has_tys_agree; [|eapply props_ty; eauto]; intros y Hy; apply Ha1; split; [apply Hr, Hy|exact (embed_none xs es l C Dom y HL Hs Hf E0 Hy)]|]. destruct em; auto. match goal with X : Forall _ xs |- _ => eapply Forall_impl; [|exact X] end. cbn beta. auto.
      * split; [|apply (supds_agree xs (embed_out em) S S' _ Ha)]. cbn [defss flat_map defs]. rewrite app_nil_r. intros y [Hy Hn].
        destruct (in_dec Z.eq_dec y xs) as [I|N]; [|rewrite !supds_other by exact N; apply Ha1; split; [apply in_app_or in Hy as [Hy|Hy]; [contradiction|exact Hy]|rewrite cdels_out in Hn by exact N; exact Hn]].
        match goal with X : length xs = length (embed_out em) |- _ => rename X into El end. clear - El I. revert S S' El I. generalize (embed_out em).
        induction xs as [|x xs IH]; intros ts S S' El I; [destruct I|]. destruct ts as [|t ts]; [discriminate El|]. cbn [supds].
        destruct (in_dec Z.eq_dec y xs) as [J|J]; [apply IH; [cbn in El; lia|exact J]|]. rewrite !supds_other by exact J. unfold supd. destruct I as [->|I]; [rewrite Z.eqb_refl; reflexivity|contradiction].
  - cbn [prop_stmt] in E. ob E. injection E as <- <-. split; [exact Hc|]. split; [exact Hs|]. split; [apply incl_refl|]. intros D S' [Ha Hb] Hi Hr. cbn [reads_oks reads_ok] in Hr. rewrite andb_true_r in Hr. apply inclb_ok in Hr.
    exists S'. split; [|split; auto]. apply sty_one. econstructor. eapply has_tys_agree; [|eapply props_ty; eauto]. intros y Hy. apply Ha. split; [apply Hr, Hy|eapply props_none; eauto].
Qed.
Theorem propagate_sty : forall p p', sty_prog p -> ends_return p -> fresh_prog p -> propagate p = Some p' -> closed_prog p' = true -> sty_prog p'.
Proof.
  intros p p' [W [[S1 T] _]] He Hs E Hc. destruct (propagate_shape p p' E) as [Ea [Er [_ [_ [_ Hend]]]]]. unfold propagate in E. ob E. destruct p0 as [C' l]. injection E as <-. cbn [zargs zret snd] in *.
  assert (G : tygood (fun C => prop_stmts C (zbody p)) (defss (zbody p)) (fun Dom => anews Dom (zbody p)) (fun S S1 => sty_stmts S (zbody p) S1)) by (apply tygood_stmts_of; apply Forall_forall; intros s _; apply tygood_stmt).
  destruct (G (sty_params (zargs p)) S1 (fun _ => None) (map zpid (zargs p)) C' l) as [_ [_ [_ A4]]]; auto; try (intros x c X; discriminate X).
  destruct (A4 (map zpid (zargs p)) (sty_params (zargs p))) as [S1' [F1 _]]; [split; auto|apply incl_refl|exact Hc|].
  split; [exact W|]. split; [exists S1'; exact F1|]. destruct (Hend He) as [ss [es [X [Y _]]]]. exists ss, es. auto.
Qed.
End ZPropType.
