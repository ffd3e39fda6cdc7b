(** The return variables ~out_i of a compiled program: each occurs in exactly one statement, [1 * e = ~out_i] or [a * b = ~out_i],
    and these statements come in the order of the indices, also after optimisation. *)
From Coq Require Import ZArith List Bool Lia.
From Verif Require Import PField SMap IR IRSpec Wf IRProofs Interp InterpProofs Optimizer OptimizerProofs OptPipeline OptExtra Bits Flat FlatProofs Zir Codegen CgBase CgGadgets CgExpr CgStmt CgEmit CgProg CgWf CgEnd.
Import ListNotations.
Open Scope Z_scope.

Section Order.
Context {PF : PrimeField}.
Definition inner (v : var) : Prop := is_output v = false.
(** a statement without return variables, or the definition of one *)
Definition tag (s : stmt) (t : list nat) : Prop :=
  t = [] /\ Forall inner (stmt_vars s) \/
  exists q i err, s = Constraint q [(vpub i, f1)] err /\ Forall inner (q_vars q) /\ t = [i].
(** the indices of the return variables defined, in order *)
Definition tags (ss : list stmt) (ts : list nat) : Prop := exists tss, Forall2 tag ss tss /\ concat tss = ts.
Lemma tags_app : forall a b s t, tags a s -> tags b t -> tags (a ++ b) (s ++ t).
Proof. intros a b s t [x [X <-]] [y [Y <-]]. exists (x ++ y). split; [apply Forall2_app; auto|apply concat_app]. Qed.
Lemma tags_nil : tags [] []. Proof. exists []. split; constructor. Qed.
Lemma tags_one : forall s t, tag s t -> tags [s] t. Proof. intros s t H. exists [t]. split; [constructor; [exact H|constructor]|cbn; apply app_nil_r]. Qed.
Lemma tags_cons : forall s ss ts, tags (s :: ss) ts -> exists t r, tag s t /\ tags ss r /\ ts = t ++ r.
Proof. intros s ss ts [tss [H <-]]. inversion H as [|? t ? tss' H1 H2]; subst. exists t, (concat tss'). split; [exact H1|]. split; [exists tss'; auto|reflexivity]. Qed.
Lemma tags_inner : forall ss, Forall (fun s => Forall inner (stmt_vars s)) ss -> tags ss [].
Proof. induction 1 as [|s ss H _ IH]; [apply tags_nil|]. change (s :: ss) with ([s] ++ ss). change (@nil nat) with (@nil nat ++ []). apply tags_app; auto. apply tags_one. left. auto. Qed.
Lemma vpub_out : forall i, ~ inner (vpub i). Proof. intros i H. unfold inner in H. rewrite vpub_is_output in H. discriminate H. Qed.
Lemma vpub_inj : forall i j, vpub i = vpub j -> i = j. Proof. intros i j H. unfold vpub in H. lia. Qed.

(** ** The passes of the optimiser *)
Variable solve : solver -> list F -> option (list F).
Lemma inner_incl : forall a b : list var, incl a b -> Forall inner b -> Forall inner a.
Proof. intros a b H. rewrite !Forall_forall. auto. Qed.
Definition sub_inner (m : list (var * lincomb)) : Prop := forall v l, aget v m = Some l -> inner v /\ Forall inner (lc_vars l).
Lemma redef_lin_inner : forall m l, sub_inner m -> Forall inner (lc_vars l) -> Forall inner (lc_vars (redef_lin m l)).
Proof.
  intros m l Hm Hl. unfold redef_lin. match goal with |- context [if ?b then _ else _] => destruct b end; [|exact Hl]. rewrite Forall_forall in *. intros x Hx. unfold lc_vars in Hx. apply in_map_iff in Hx as [[y c] [<- Hy]]. apply in_flat_map in Hy as [[z d] [Hz Hy]]. cbn [fst snd] in *.
  destruct (aget z m) as [l'|] eqn:E.
  - destruct (Hm _ _ E) as [_ K]. rewrite Forall_forall in K. apply K. rewrite <- (lc_scale_vars d l'). unfold lc_vars. apply in_map_iff. exists (y, c). auto.
  - cbn in Hy. destruct Hy as [Hy|[]]. injection Hy as <- <-. apply Hl. unfold lc_vars. apply in_map_iff. exists (z, d). auto.
Qed.
Lemma redef_quad_inner : forall m q, sub_inner m -> Forall inner (q_vars q) -> Forall inner (q_vars (redef_quad m q)).
Proof. intros m q Hm Hq. unfold q_vars in *. apply Forall_app in Hq as [A B]. apply Forall_app. split; apply redef_lin_inner; auto. Qed.
Lemma redef_lin_out : forall m i, sub_inner m -> redef_lin m [(vpub i, f1)] = [(vpub i, f1)].
Proof.
  intros m i Hm. unfold redef_lin. match goal with |- context [if ?b then _ else _] => destruct b eqn:E end; [|reflexivity]. cbn in E. destruct (aget (vpub i) m) eqn:G; [|discriminate E]. destruct (Hm _ _ G) as [K _]. destruct (vpub_out _ K).
Qed.
Lemma summand_var : forall l v k, lc_try_summand l = Some (v, k) -> In v (lc_vars l).
Proof. intros [|[v0 c] l] v k H; cbn in H; [discriminate H|]. destruct (_ && _); [|discriminate H]. injection H as <- _. left. reflexivity. Qed.
Lemma lc_div_vars : forall l k l', lc_div l k = Some l' -> lc_vars l' = lc_vars l.
Proof. intros l k l' H. unfold lc_div in H. destruct (Feqb k f0); [discriminate H|]. injection H as <-. apply lc_scale_vars. Qed.
Lemma canon_inner : forall l, Forall inner (lc_vars l) -> Forall inner (lc_vars (lc_canon l)).
Proof. intros l. apply inner_incl, lc_canon_vars. Qed.
Lemma inner_one : inner vone. Proof. reflexivity. Qed.
Lemma redef_tag : forall n st s t st' out, sub_inner (rsub st) -> (forall i, (i < n)%nat -> In (vpub i) (rign st)) -> (forall i, In i t -> (i < n)%nat) -> tag s t ->
  redef_step solve false st s = Some (st', out) -> sub_inner (rsub st') /\ (forall i, (i < n)%nat -> In (vpub i) (rign st')) /\ tags out t.
Proof.
  intros n st s t st' out Hs Hi Ht T E. destruct T as [[-> Tv]|[q [i [err [-> [Tq ->]]]]]].
  - destruct s as [q l e|outs sv ins|fm es]; cbn [redef_step stmt_vars] in *.
    + apply Forall_app in Tv as [Tq Tl]. set (q' := redef_quad (rsub st) q) in *. set (l' := redef_lin (rsub st) l) in *.
      assert (Hq' : Forall inner (q_vars q')) by (apply redef_quad_inner; auto). assert (Hl' : Forall inner (lc_vars l')) by (apply redef_lin_inner; auto).
      assert (Keep : Some (st, [Constraint q' l' e]) = Some (st', out) -> sub_inner (rsub st') /\ (forall i, (i < n)%nat -> In (vpub i) (rign st')) /\ tags out []).
      { intros X. injection X as <- <-. split; [exact Hs|]. split; [exact Hi|]. apply tags_one. left. split; [reflexivity|]. cbn [stmt_vars]. apply Forall_app. auto. }
      destruct l' as [|[v0 c0] l0] eqn:El; [apply Keep; exact E|]. destruct (vmem v0 (rign st) || _); [apply Keep; exact E|].
      destruct (lc_try_summand ((v0, c0) :: l0)) as [[v k]|] eqn:Es; [|apply Keep; exact E]. pose proof (summand_var _ _ _ Es) as Hv. assert (Iv : inner v) by (rewrite Forall_forall in Hl'; auto).
      destruct (q_try_linear q') as [lin|] eqn:Eq.
      * destruct (lc_div lin k) as [lin'|] eqn:Ed; [|discriminate E]. injection E as <- <-. split; [|split; [exact Hi|apply tags_nil]]. cbn [rsub]. intros x lx. cbn [aget]. destruct (Z.eqb_spec x v) as [->|]; [|apply Hs].
        intros X. injection X as <-. split; [exact Iv|]. apply canon_inner. rewrite (lc_div_vars _ _ _ Ed). eapply inner_incl; [apply (q_try_linear_vars _ _ Eq)|exact Hq'].
      * injection E as <- <-. split; [exact Hs|]. split; [intros i Hin; right; auto|]. apply tags_one. left. split; [reflexivity|]. cbn [stmt_vars]. apply Forall_app. split; [exact Hq'|]. repeat constructor. exact Iv.
    + apply Forall_app in Tv as [Ti To].
      assert (Hin : forall q, In q ins -> Forall inner (q_vars q)) by (intros q Hq; eapply inner_incl; [|exact Ti]; intros x X; apply in_flat_map; eauto).
      destruct (all_consts (map (redef_input (rsub st)) ins)) as [ks|] eqn:Ek.
      * destruct (solve sv ks) as [res|]; [|discriminate E]. destruct (Nat.eqb (length res) (length outs)); [|discriminate E]. injection E as <- <-. split; [|split; [exact Hi|apply tags_nil]]. cbn [rsub].
        assert (G : forall m1 m2, (forall v l, In (v, l) m1 -> inner v /\ Forall inner (lc_vars l)) -> sub_inner m2 -> sub_inner (m1 ++ m2)).
        { induction m1 as [|[x lx] m1 IH]; intros m2 H1 H2; [exact H2|]. intros v l. cbn [app aget]. destruct (Z.eqb_spec v x) as [->|]; [intros X; injection X as <-; apply H1; left; reflexivity|]. apply IH; auto. intros a b Hab. apply H1. right. exact Hab. }
        apply G; [|exact Hs]. intros v l Hvl. apply in_rev in Hvl. pose proof (in_combine_l _ _ _ _ Hvl) as Hv. pose proof (in_combine_r _ _ _ _ Hvl) as Hl. split; [rewrite Forall_forall in To; auto|].
        apply in_map_iff in Hl as [x [<- _]]. apply canon_inner. unfold lc_const. rewrite lc_scale_vars. repeat constructor.
      * injection E as <- <-. split; [exact Hs|]. split; [intros i X; cbn [rign]; apply in_or_app; right; auto|]. apply tags_one. left. split; [reflexivity|]. cbn [stmt_vars]. apply Forall_app. split; [|exact To].
        apply Forall_forall. intros x Hx. apply in_flat_map in Hx as [q [Hq Hx]]. apply in_map_iff in Hq as [u [<- Hu]]. apply in_map_iff in Hu as [q0 [<- Hq0]].
        unfold redef_input in Hx. set (qq := q_canon (redef_quad (rsub st) q0)) in *. assert (Iq : Forall inner (q_vars qq)) by (eapply inner_incl; [apply q_canon_vars|]; apply redef_quad_inner; auto).
        destruct (q_try_linear qq) as [l|] eqn:El; [|rewrite Forall_forall in Iq; auto]. assert (Il : Forall inner (lc_vars l)) by (eapply inner_incl; [apply (q_try_linear_vars _ _ El)|exact Iq]).
        destruct (lc_try_constant l); cbn in Hx; [destruct Hx as [<-|[<-|[]]]; reflexivity|]. unfold q_vars, q_of_lc in Hx. cbn in Hx. destruct Hx as [<-|Hx]; [reflexivity|]. rewrite Forall_forall in Il. auto.
    + injection E as <- <-. split; [exact Hs|]. split; [exact Hi|]. apply tags_one. left. split; [reflexivity|]. cbn [stmt_vars]. apply Forall_forall. intros x Hx. apply in_flat_map in Hx as [l [Hl Hx]]. apply in_map_iff in Hl as [l0 [<- Hl0]].
      assert (Il : Forall inner (lc_vars (redef_lin (rsub st) l0))) by (apply redef_lin_inner; [exact Hs|]; eapply inner_incl; [|exact Tv]; intros y Y; apply in_flat_map; eauto). rewrite Forall_forall in Il. auto.
  - cbn [redef_step] in E. rewrite (redef_lin_out _ i Hs) in E. assert (M : vmem (vpub i) (rign st) = true) by (apply existsb_exists; exists (vpub i); split; [apply Hi, Ht; left; reflexivity|apply Z.eqb_refl]). rewrite M in E. cbn [orb] in E. injection E as <- <-.
    split; [exact Hs|]. split; [exact Hi|]. apply tags_one. right. exists (redef_quad (rsub st) q), i, err. split; [reflexivity|]. split; [apply redef_quad_inner; auto|reflexivity].
Qed.
Lemma redef_tags : forall n ss st ts st' out, sub_inner (rsub st) -> (forall i, (i < n)%nat -> In (vpub i) (rign st)) -> (forall i, In i ts -> (i < n)%nat) -> tags ss ts ->
  run_pass (redef_step solve false) st ss = Some (st', out) -> tags out ts.
Proof.
  induction ss as [|s ss IH]; intros st ts st' out Hs Hi Ht T E; cbn [run_pass] in E.
  - injection E as <- <-. exact T.
  - apply tags_cons in T as [t [r [T1 [T2 ->]]]]. destruct (redef_step solve false st s) as [[st1 o1]|] eqn:E1; [|discriminate E]. destruct (run_pass (redef_step solve false) st1 ss) as [[st2 o2]|] eqn:E2; [|discriminate E]. injection E as <- <-.
    destruct (redef_tag n _ _ _ _ _ Hs Hi (fun i X => Ht i (in_or_app _ _ _ (or_introl X))) T1 E1) as [H1 [H2 H3]]. apply tags_app; [exact H3|]. eapply IH; eauto. intros i X. apply Ht, in_or_app. right. exact X.
Qed.
Lemma stateless_tags : forall (step : unit -> stmt -> option (unit * list stmt)), (forall u s t u' out, tag s t -> step u s = Some (u', out) -> tags out t) ->
  forall ss ts u u' out, tags ss ts -> run_pass step u ss = Some (u', out) -> tags out ts.
Proof.
  intros step Hst. induction ss as [|s ss IH]; intros ts u u' out T E; cbn [run_pass] in E.
  - injection E as <- <-. exact T.
  - apply tags_cons in T as [t [r [T1 [T2 ->]]]]. destruct (step u s) as [[st1 o1]|] eqn:E1; [|discriminate E]. destruct (run_pass step st1 ss) as [[st2 o2]|] eqn:E2; [|discriminate E]. injection E as <- <-. apply tags_app; eauto.
Qed.
Lemma taut_tag : forall u s t u' out, tag s t -> taut_step u s = Some (u', out) -> tags out t.
Proof.
  intros u s t u' out T E. destruct s as [q l e| |]; cbn [taut_step] in E; try (injection E as <- <-; apply tags_one; exact T). destruct (q_try_linear q) as [l'|] eqn:Eq; [|injection E as <- <-; apply tags_one; exact T].
  pose proof (q_try_linear_vars _ _ Eq) as V. destruct (lc_eqb l' l) eqn:El.
  - injection E as <- <-. apply lc_eqb_eq in El. subst l'. destruct T as [[-> _]|[q0 [i [err [X [Tq ->]]]]]]; [apply tags_nil|]. injection X as <- -> <-. exfalso. apply (vpub_out i). rewrite Forall_forall in Tq. apply Tq, V. left. reflexivity.
  - injection E as <- <-. apply tags_one. destruct T as [[-> Tv]|[q0 [i [err [X [Tq ->]]]]]].
    + left. split; [reflexivity|]. cbn [stmt_vars] in *. apply Forall_app in Tv as [A B]. apply Forall_app. split; [|exact B]. unfold q_vars, q_of_lc. cbn. constructor; [reflexivity|]. eapply inner_incl; [exact V|exact A].
    + injection X as <- -> <-. right. exists (q_of_lc l'), i, e. split; [reflexivity|]. split; [|reflexivity]. unfold q_vars, q_of_lc. cbn. constructor; [reflexivity|]. eapply inner_incl; [exact V|exact Tq].
Qed.
Lemma canon_out : forall i, lc_canon [(vpub i, f1)] = [(vpub i, f1)].
Proof. intros i. unfold lc_canon. cbn [fold_left canon_step sget]. destruct (Feqb f1 f0) eqn:E; [|reflexivity]. exfalso. apply F_1_neq_0, F_ext. unfold Feqb in E. apply Z.eqb_eq in E. exact E. Qed.
Lemma canon_tag : forall u s t u' out, tag s t -> canon_pass_step u s = Some (u', out) -> tags out t.
Proof.
  intros u s t u' out T E. injection E as <- <-. apply tags_one. destruct T as [[-> Tv]|[q0 [i [err [-> [Tq ->]]]]]].
  - left. split; [reflexivity|]. destruct s as [q l e|outs sv ins|fm es]; cbn [canon_stmt stmt_vars] in *.
    + apply Forall_app in Tv as [A B]. apply Forall_app. split; [eapply inner_incl; [apply q_canon_vars|exact A]|apply canon_inner; exact B].
    + apply Forall_app in Tv as [A B]. apply Forall_app. split; [|exact B]. eapply inner_incl; [|exact A]. intros x X. apply in_flat_map in X as [q [Q X]]. apply in_map_iff in Q as [q' [<- Q]]. apply in_flat_map. exists q'. split; [exact Q|]. apply q_canon_vars, X.
    + eapply inner_incl; [|exact Tv]. intros x X. apply in_flat_map in X as [q [Q X]]. apply in_map_iff in Q as [q' [<- Q]]. apply in_flat_map. exists q'. split; [exact Q|]. apply lc_canon_vars, X.
  - right. exists (q_canon q0), i, err. cbn [canon_stmt]. rewrite canon_out. split; [reflexivity|]. split; [eapply inner_incl; [apply q_canon_vars|exact Tq]|reflexivity].
Qed.
(* directives *)
Definition dgood (st : dstate) : Prop := (forall v u, aget v (dsub st) = Some u -> inner v /\ inner u) /\ (forall c o, In (c, o) (dcalls st) -> Forall inner o).
Lemma dir_var_inner : forall st v, dgood st -> inner v -> inner (dir_var (dsub st) v).
Proof. intros st v [H _] Hv. unfold dir_var. destruct (aget v (dsub st)) eqn:E; [apply (H _ _ E)|exact Hv]. Qed.
Lemma dir_lin_inner : forall st l, dgood st -> Forall inner (lc_vars l) -> Forall inner (lc_vars (dir_lin (dsub st) l)).
Proof. intros st l H Hl. unfold dir_lin, lc_vars in *. rewrite map_map. cbn [fst]. rewrite Forall_map in *. eapply Forall_impl; [|exact Hl]. intros [v c] Hv. apply dir_var_inner; auto. Qed.
Lemma dir_quad_inner : forall st q, dgood st -> Forall inner (q_vars q) -> Forall inner (q_vars (dir_quad (dsub st) q)).
Proof. intros st q H Hq. unfold q_vars in *. apply Forall_app in Hq as [A B]. apply Forall_app. split; apply dir_lin_inner; auto. Qed.
Lemma dir_tag : forall st s t st' out, dgood st -> tag s t -> dir_step st s = Some (st', out) -> dgood st' /\ tags out t.
Proof.
  intros st s t st' out G T E. destruct T as [[-> Tv]|[q [i [err [-> [Tq ->]]]]]].
  - destruct s as [q l e|outs sv ins|fm es]; cbn [dir_step stmt_vars] in *.
    + injection E as <- <-. split; [exact G|]. apply tags_one. left. split; [reflexivity|]. cbn [stmt_vars]. apply Forall_app in Tv as [A B]. apply Forall_app. split; [apply dir_quad_inner; auto|apply dir_lin_inner; auto].
    + apply Forall_app in Tv as [A B]. assert (O : Forall inner (map (dir_var (dsub st)) outs)) by (rewrite Forall_map; eapply Forall_impl; [|exact B]; intros v Hv; apply dir_var_inner; auto).
      destruct (call_get _ (dcalls st)) as [outs0|] eqn:Ec.
      * injection E as <- <-. split; [|apply tags_nil]. assert (O0 : Forall inner outs0).
        { destruct G as [_ G]. revert Ec. clear - G. induction (dcalls st) as [|[c o] m IH]; cbn [call_get]; [intros X; discriminate X|]. destruct (call_eqb _ c); [intros X; injection X as <-; eapply G; left; reflexivity|]. apply IH. intros c' o' H. eapply G. right. exact H. }
        split; [|exact (proj2 G)]. cbn [dsub]. assert (K : forall m1 m2 : list (var * var), (forall v u, In (v, u) m1 -> inner v /\ inner u) -> (forall v u, aget v m2 = Some u -> inner v /\ inner u) -> forall v u, aget v (m1 ++ m2) = Some u -> inner v /\ inner u).
        { induction m1 as [|[x ux] m1 IH]; intros m2 H1 H2 v u; [apply H2|]. cbn [app aget]. destruct (Z.eqb_spec v x) as [->|]; [intros X; injection X as <-; apply H1; left; reflexivity|]. apply IH; auto. intros a b Hab. apply H1. right. exact Hab. }
        apply K; [|exact (proj1 G)]. intros v u X. apply in_rev in X. rewrite Forall_forall in O, O0. split; [apply O; eapply in_combine_l; eauto|apply O0; eapply in_combine_r; eauto].
      * injection E as <- <-. split; [split; [exact (proj1 G)|]; cbn [dcalls]; intros c o [X|X]; [injection X as <- <-; exact O|eapply (proj2 G); eauto]|]. apply tags_one. left. split; [reflexivity|]. cbn [stmt_vars]. apply Forall_app. split; [|exact O].
        apply Forall_forall. intros x X. apply in_flat_map in X as [q [Q X]]. apply in_map_iff in Q as [q' [<- Q]]. assert (K : Forall inner (q_vars (dir_quad (dsub st) q'))) by (apply dir_quad_inner; [exact G|]; eapply inner_incl; [|exact A]; intros y Y; apply in_flat_map; eauto). rewrite Forall_forall in K. auto.
    + injection E as <- <-. split; [exact G|]. apply tags_one. left. split; [reflexivity|]. cbn [stmt_vars]. apply Forall_forall. intros x X. apply in_flat_map in X as [q [Q X]]. apply in_map_iff in Q as [q' [<- Q]]. assert (K : Forall inner (lc_vars (dir_lin (dsub st) q'))) by (apply dir_lin_inner; [exact G|]; eapply inner_incl; [|exact Tv]; intros y Y; apply in_flat_map; eauto). rewrite Forall_forall in K. auto.
  - cbn [dir_step] in E. injection E as <- <-. split; [exact G|]. apply tags_one. right. exists (dir_quad (dsub st) q), i, err. split; [|split; [apply dir_quad_inner; auto|reflexivity]].
    do 2 f_equal. unfold dir_lin. cbn [map fst snd]. do 2 f_equal. unfold dir_var. destruct (aget (vpub i) (dsub st)) eqn:X; [|reflexivity]. destruct (vpub_out i). apply (proj1 G _ _ X).
Qed.
Lemma dir_tags : forall ss ts st st' out, dgood st -> tags ss ts -> run_pass dir_step st ss = Some (st', out) -> tags out ts.
Proof.
  induction ss as [|s ss IH]; intros ts st st' out G T E; cbn [run_pass] in E.
  - injection E as <- <-. exact T.
  - apply tags_cons in T as [t [r [T1 [T2 ->]]]]. destruct (dir_step st s) as [[st1 o1]|] eqn:E1; [|discriminate E]. destruct (run_pass dir_step st1 ss) as [[st2 o2]|] eqn:E2; [|discriminate E]. injection E as <- <-. destruct (dir_tag _ _ _ _ _ G T1 E1) as [G1 T3]. apply tags_app; eauto.
Qed.
Variable hash : stmt -> Z.
Lemma dup_tags : forall univ, (forall a b, In a univ -> In b univ -> hash a = hash b -> strip a = strip b) ->
  forall ss ts pre seen st' out, tags ss ts -> NoDup ts -> incl ss univ -> incl pre univ -> (forall i, In i ts -> forall s t, In s pre -> tag s t -> ~ In i t) -> (forall s, In s pre -> exists t, tag s t) ->
  (forall h, In h seen <-> exists s, In s pre /\ hash s = h) -> run_pass (dup_step hash) seen ss = Some (st', out) -> tags out ts.
Proof.
  intros univ Hu. induction ss as [|s ss IH]; intros ts pre seen st' out T N Is Ip Hp Ht Hs E; cbn [run_pass] in E.
  - injection E as <- <-. exact T.
  - apply tags_cons in T as [t [r [T1 [T2 ->]]]]. cbn [dup_step] in E. destruct (run_pass (dup_step hash) (hash s :: seen) ss) as [[st2 o2]|] eqn:E2; [|discriminate E]. injection E as <- <-.
    assert (Rec : tags o2 r).
    { eapply (IH r (s :: pre)); [exact T2| |intros x X; apply Is; right; exact X| | | | |exact E2].
      - clear - N. induction t as [|x t IHt]; [exact N|]. cbn in N. inversion N; subst. auto.
      - intros x [<-|X]; [apply Is; left; reflexivity|auto].
      - intros i Hi s0 t0 [<-|X] T0; [|apply (Hp i (in_or_app _ _ _ (or_intror Hi)) s0 t0 X T0)].
        destruct T0 as [[-> _]|[q [j [err [Es [_ ->]]]]]]; [intros []|]. intros [<-|[]]. destruct T1 as [[-> Tv]|[q' [j' [err' [Es' [_ ->]]]]]].
        + rewrite Es in Tv. cbn [stmt_vars] in Tv. apply Forall_app in Tv as [_ Tv]. inversion Tv; subst. eapply vpub_out; eauto.
        + rewrite Es in Es'. injection Es' as _ Ev _. cbn [app] in N. inversion N as [|? ? X Y]; subst. apply X. rewrite <- (vpub_inj _ _ Ev). exact Hi.
      - intros s0 [<-|X]; eauto.
      - intros h. cbn [In]. rewrite Hs. split; [intros [<-|[x [X <-]]]; [exists s; auto|exists x; auto]|intros [x [[<-|X] Y]]; [left; exact Y|right; eauto]]. }
    apply tags_app; [|exact Rec]. destruct (existsb (Z.eqb (hash s)) seen) eqn:Ex; [|apply tags_one; exact T1]. apply existsb_exists in Ex as [h [Hh Eh]]. apply Z.eqb_eq in Eh. subst h. apply Hs in Hh as [s0 [X0 Y0]].
    destruct T1 as [[-> _]|[q [i [err [-> [_ ->]]]]]]; [apply tags_nil|]. exfalso.
    assert (S0 : strip s0 = strip (Constraint q [(vpub i, f1)] err)) by (apply Hu; [auto|apply Is; left; reflexivity|exact Y0]). destruct s0 as [q0 l0 e0| |]; cbn in S0; try discriminate S0. injection S0 as -> ->.
    destruct (Ht _ X0) as [t0 T0]. pose proof T0 as T0'. destruct T0' as [[-> Tv]|[q1 [j [err1 [Ej [_ ->]]]]]].
    + cbn [stmt_vars] in Tv. apply Forall_app in Tv as [_ Tv]. inversion Tv; subst. eapply vpub_out; eauto.
    + injection Ej as _ Ev _. apply (Hp i (or_introl eq_refl) _ _ X0 T0). left. symmetry. apply vpub_inj. exact Ev.
Qed.
Lemma optimize_4_tags : forall args n ss out, Forall inner (map pid args) -> tags ss (seq 0 n) -> optimize_4 solve args n ss = Some out -> tags out (seq 0 n).
Proof.
  intros args n ss out Ha T E. unfold optimize_4 in E.
  destruct (run_pass (redef_step solve false) (redef_init args n) ss) as [[st1 s1]|] eqn:E1; [|discriminate E]. destruct (run_pass taut_step tt s1) as [[st2 s2]|] eqn:E2; [|discriminate E].
  destruct (run_pass canon_pass_step tt s2) as [[st3 s3]|] eqn:E3; [|discriminate E]. destruct (run_pass dir_step dir_init s3) as [[st4 s4]|] eqn:E4; [|discriminate E]. injection E as <-.
  assert (T1 : tags s1 (seq 0 n)).
  { eapply (redef_tags n ss (redef_init args n)); [| | |exact T|exact E1]; [intros v l X; discriminate X| |intros i X; apply in_seq in X; lia].
    intros i X. unfold redef_init. cbn [rign]. right. apply in_or_app. right. apply in_map, in_seq. lia. }
  pose proof (stateless_tags _ taut_tag _ _ _ _ _ T1 E2) as T2. pose proof (stateless_tags _ canon_tag _ _ _ _ _ T2 E3) as T3.
  eapply dir_tags; [|exact T3|exact E4]. split; [intros v u X; discriminate X|intros c o []].
Qed.
Lemma optimize_tags : forall args n ss s4 out, Forall inner (map pid args) -> tags ss (seq 0 n) -> optimize_4 solve args n ss = Some s4 ->
  (forall a b, In a s4 -> In b s4 -> hash a = hash b -> strip a = strip b) -> optimize_flat solve hash args n ss = Some out -> tags out (seq 0 n).
Proof.
  intros args n ss s4 out Ha T E4 Hh E. unfold optimize_flat in E. rewrite E4 in E. destruct (run_pass (dup_step hash) [] s4) as [[st s5]|] eqn:E5; [|discriminate E]. injection E as <-.
  refine (dup_tags s4 Hh s4 (seq 0 n) [] [] st s5 _ _ _ _ _ _ _ E5).
  - eapply optimize_4_tags; eauto.
  - apply seq_NoDup.
  - apply incl_refl.
  - intros x [].
  - intros i _ s t [].
  - intros s [].
  - intros h. split; [intros []|intros [s [[] _]]].
Qed.
End Order.

(** ** Code generation *)
Section Cg.
Context {PF : PrimeField}.
Lemma lower_vars_inner : forall e q, quad_of_flat e = Some q -> Forall inner (fvars e) -> Forall inner (q_vars q).
Proof.
  assert (L : forall e l, lc_of_flat e = Some l -> Forall inner (fvars e) -> Forall inner (lc_vars l)).
  { induction e as [c|v|a IHa b IHb|a IHa b IHb|a IHa b IHb]; intros l E H; cbn [lc_of_flat] in E.
    - injection E as <-. destruct (Feqb c f0); repeat constructor.
    - injection E as <-. exact H.
    - destruct (lc_of_flat a) as [x|]; [|discriminate E]. destruct (lc_of_flat b) as [y|]; [|discriminate E]. injection E as <-. cbn in H. apply Forall_app in H as [A B]. unfold lc_add, lc_vars. rewrite map_app. apply Forall_app. split; [apply IHa|apply IHb]; auto.
    - destruct (lc_of_flat a) as [x|]; [|discriminate E]. destruct (lc_of_flat b) as [y|]; [|discriminate E]. injection E as <-. cbn in H. apply Forall_app in H as [A B]. unfold lc_sub, lc_vars. rewrite map_app, map_map. cbn [fst]. apply Forall_app. split; [apply IHa|apply (IHb y)]; auto.
    - destruct a; try discriminate E; destruct b; try discriminate E; injection E as <-; cbn in *; auto; repeat constructor. }
  intros e q E H. unfold quad_of_flat in E.
  assert (G : forall x, lc_of_flat e = Some x -> Forall inner (q_vars (q_of_lc x))) by (intros x X; unfold q_vars, q_of_lc; cbn; constructor; [reflexivity|]; apply (L e); auto).
  destruct e; try (destruct (lc_of_flat _) as [x|] eqn:X in E; [|discriminate E]; injection E as <-; apply G; exact X).
  destruct (lc_of_flat e1) as [x|] eqn:X; [|discriminate E]. destruct (lc_of_flat e2) as [y|] eqn:Y; [|discriminate E]. injection E as <-. cbn in H. apply Forall_app in H as [A B]. unfold q_vars. cbn. apply Forall_app. split; [apply (L e1)|apply (L e2)]; auto.
Qed.
End Cg.
Section Shape.
Context {PF : PrimeField}.
Lemma intro_mono : forall d s d', intro d s = Some d' -> incl d d' /\ incl (stmt_vars s) d'.
Proof.
  intros d s d' H. destruct s as [q l e|outs sv ins|fm es]; cbn [intro stmt_vars] in *.
  - destruct (subset (q_vars q) d) eqn:Q; [|discriminate H]. pose proof (proj1 (subset_spec _ _) Q) as Q'. destruct (subset (lc_vars l) d) eqn:L.
    + injection H as <-. pose proof (proj1 (subset_spec _ _) L) as L'. split; [apply incl_refl|]. apply incl_app; auto.
    + destruct l as [|[v c] [|]]; try discriminate H. destruct (Feqb c f1); [|discriminate H]. injection H as <-. split; [apply incl_tl, incl_refl|]. apply incl_app; [apply incl_tl; exact Q'|]. intros x [<-|[]]. left. reflexivity.
  - match type of H with (if ?b then _ else _) = _ => destruct b eqn:Q; [|discriminate H] end. injection H as <-. repeat (apply andb_true_iff in Q as [Q ?]).
    split; [apply incl_appr, incl_refl|]. apply incl_app; [|apply incl_appl, incl_refl]. apply incl_appr. apply subset_spec. assumption.
  - match type of H with (if ?b then _ else _) = _ => destruct b eqn:Q; [|discriminate H] end. injection H as <-. split; [apply incl_refl|]. apply subset_spec. exact Q.
Qed.
Lemma intro_all_vars : forall ss d d', intro_all d ss = Some d' -> incl d d' /\ Forall (fun s => incl (stmt_vars s) d') ss.
Proof.
  induction ss as [|s ss IH]; intros d d' H; cbn [intro_all] in H; [injection H as <-; split; [apply incl_refl|constructor]|].
  destruct (intro d s) as [d1|] eqn:E; [|discriminate H]. destruct (intro_mono _ _ _ E) as [A B]. destruct (IH _ _ H) as [C D]. split; [eapply incl_tran; eauto|]. constructor; [eapply incl_tran; eauto|exact D].
Qed.
Lemma lower_app_inv : forall a b ss, lower (a ++ b) = Some ss -> exists x y, lower a = Some x /\ lower b = Some y /\ ss = x ++ y.
Proof.
  induction a as [|s a IH]; intros b ss H; cbn [app lower] in *; [exists [], ss; auto|]. destruct (lower_stmt s) as [z|]; [|discriminate H]. destruct (lower (a ++ b)) as [t|] eqn:E; [|discriminate H]. injection H as <-.
  destruct (IH _ _ E) as [x [y [-> [Hy ->]]]]. exists (z ++ x), y. rewrite app_assoc. auto.
Qed.
Lemma returns_tags : forall us k ss, Forall (fun u => Forall inner (fvars (getf u))) us -> lower (zip2 (fun i u => XDef (vpub i) (getf u) None) (seq k (length us)) us) = Some ss -> tags ss (seq k (length us)).
Proof.
  induction us as [|u us IH]; intros k ss H E; cbn [length seq zip2 lower] in E; [injection E as <-; apply tags_nil|]. inversion H as [|? ? H1 H2]; subst. cbn [lower_stmt] in E.
  destruct (quad_of_flat (getf u)) as [q|] eqn:Q; [|discriminate E]. destruct (lower _) as [r|] eqn:L in E; [|discriminate E]. injection E as <-. cbn [length seq].
  change (tags ([Constraint q [(vpub k, f1)] None] ++ r) ([k] ++ seq (Datatypes.S k) (length us))). apply tags_app; [|apply IH; auto]. apply tags_one. right. exists q, k, None. split; [reflexivity|]. split; [eapply lower_vars_inner; eauto|reflexivity].
Qed.
Theorem compile_tags : forall p c, ends_return p -> compile p = Some c -> tags (flat_stmts (pstmts c)) (seq 0 (zret p)) /\ Forall inner (map pid (pargs c)).
Proof.
  intros p c [ss [es [Eb [Hl Hn]]]] H. destruct (compile_inv _ _ H) as [prms [em [out [E [El ->]]]]]. cbn [pargs pstmts]. rewrite flat_singles. clear H. unfold codegen, codegen_m in E.
  match type of E with (match ?m with _ => _ end) = _ => destruct m as [[[x s] o]|] eqn:Er; [|discriminate] end.
  injection E as <- <-. unfold bind, ret in Er.
  destruct (mapM use_param (zargs p) init_st) as [[[qs s1] o1]|] eqn:E1; [|discriminate].
  destruct (flat_stmts_z (zbody p) s1) as [[[t s2] o2]|] eqn:E2; [|discriminate]. injection Er as <- <- <-. rewrite app_nil_r in El.
  assert (W0 : WInv [vone] [] init_st).
  { split; cbn; auto; [|constructor|discriminate|contradiction]. intros v [[<-|[]]|[]]. unfold vone, vnew. cbn. lia. }
  destruct (wf_params _ _ _ _ _ _ W0 E1) as [[D1 [F1 W1]] [N1 [L1 [_ R1]]]].
  destruct (frame o1 (map pid qs ++ [vone]) D1 [] (vone :: map pid qs) F1) as [D2 [F2 H2]].
  { intros u. cbn. rewrite in_app_iff. cbn. tauto. }
  { intros u []. }
  assert (W2 : WInv D2 [] s1) by (apply (WInv_set D1); auto; intros u; rewrite H2; cbn; tauto).
  rewrite Eb in E2. destruct (flat_stmts_app _ _ _ _ _ _ E2) as [s3 [o3 [o4 [t3 [A [B ->]]]]]].
  destruct (wf_stmts ss Hn D2 [] s1 t3 s3 o3 W2 A) as [D3 [P3 [F3 [W3 [-> _]]]]].
  cbn [flat_stmts_z flat_stmt] in B. unfold bind, ret, emits in B.
  destruct (mapM flat es s3) as [[[us s4] o5]|] eqn:E5; [|discriminate]. injection B as <- <- <-.
  destruct (wfq_flats es D3 [] s3 us s4 o5 W3 E5) as [D4 [P4 [F4 [W4 [-> U4]]]]].
  assert (Hlen : length us = length es).
  { clear - E5. revert s3 us s4 o5 E5. induction es as [|e es IH]; intros s us s' o E; cbn [mapM] in E; [injection E as <- <- <-; auto|].
    unfold bind, ret in E. destruct (flat e s) as [[[u s1] o1]|]; [|discriminate]. destruct (mapM flat es s1) as [[[us1 s2] o2]|] eqn:E2; [|discriminate].
    injection E as <- <- <-. cbn. f_equal. eapply IH; eauto. }
  assert (In4 : forall v, In v D4 -> inner v). { intros v Hv. unfold inner, is_output. apply Z.ltb_ge. pose proof (wi_range _ _ _ W4 v (or_introl Hv)). lia. }
  rewrite !app_nil_r in El. rewrite <- Hl, <- Hlen.
  split.
  - rewrite !app_assoc in El. apply lower_app_inv in El as [x [y [X [Y ->]]]].
    assert (FA : fintro_all (vone :: map pid qs) ((o1 ++ o3) ++ o5) = Some D4) by (rewrite !fintro_all_app, F2, F3, F4; reflexivity).
    destruct (lower_intro _ _ _ _ (in_eq _ _) FA X) as [o' [I1 [_ I2]]]. destruct (intro_all_vars _ _ _ I1) as [_ V].
    change (seq 0 (length us)) with ([] ++ seq 0 (length us)). apply tags_app.
    + apply tags_inner. eapply Forall_impl; [|exact V]. intros a Ha. apply Forall_forall. intros v Hv. apply In4, I2, Ha, Hv.
    + apply returns_tags; [|exact Y]. eapply Forall_impl; [|exact U4]. intros u Hu. apply Forall_forall. intros v Hv. apply In4. apply Hu. exact Hv.
  - apply Forall_forall. intros v Hv. specialize (R1 v Hv). unfold inner, is_output. apply Z.ltb_ge. unfold vnew in R1. lia.
Qed.
End Shape.
