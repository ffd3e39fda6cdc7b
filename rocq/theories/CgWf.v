(** The code generator introduces every variable before using it, and uses fresh variables. *)
From Coq Require Import ZArith NArith List Bool Lia Permutation.
From Verif Require Import PField SMap IR IRSpec Wf IRProofs Interp InterpProofs Bits Flat FlatProofs Zir Codegen CgBase CgGadgets CgExpr CgStmt CgEmit CgProg.
Import ListNotations.
Open Scope Z_scope.
Local Notation "x <- m ;; k" := (bind m (fun x => k)) (at level 61, m at next level, right associativity).
Local Notation "m ;;; k" := (bind m (fun _ => k)) (at level 61, right associativity).

Section CgWf.
Context {PF : PrimeField}.

(** [D]: the variables introduced so far; [P]: the variables issued but not introduced yet. *)
Definition lvars (l : list fexp) : list var := flat_map fvars l.
Record WInv (D P : list var) (s : st) : Prop := {
  wi_range : forall v, In v D \/ In v P -> 0 <= v < vnew (nxt s);
  wi_nodup : NoDup P;
  wi_disj : forall v, In v P -> ~ In v D;
  wi_one : ~ In vone P;
  wi_lay : forall x v, lookup x (lay s) = Some v -> In v D;
  wi_cache : forall k bits ex, In (k, (bits, ex)) (cache s) -> incl (lvars bits) D }.

Definition wf {A} (P D : list var) (m : M A) (Q : list var -> list var -> A -> Prop) : Prop :=
  forall s a s' em, WInv D P s -> m s = Some (a, s', em) ->
  exists D' P', fintro_all D em = Some D' /\ WInv D' P' s' /\ Q P' D' a.
Definition wfq {A} (D : list var) (m : M A) (Q : list var -> A -> Prop) : Prop :=
  forall P, wf P D m (fun P' D' a => P' = P /\ Q D' a).

Lemma wf_ret : forall A P D (a : A) (Q : list var -> list var -> A -> Prop), Q P D a -> wf P D (ret a) Q.
Proof. intros A P D a Q H s x s' em W E. injection E as <- <- <-. exists D, P. auto. Qed.
Lemma wf_fail : forall A P D Q, wf P D (@fail PF A) Q.
Proof. intros A P D Q s x s' em W E. discriminate. Qed.
Lemma wf_bind : forall A B P D (m : M A) (k : A -> M B) R Q, wf P D m R ->
  (forall P1 D1 a, incl D D1 -> R P1 D1 a -> wf P1 D1 (k a) Q) -> wf P D (bind m k) Q.
Proof.
  intros A B P D m k R Q Hm Hk s b s' em W E. unfold bind in E. destruct (m s) as [[[a s1] o1]|] eqn:E1; [|discriminate].
  destruct (k a s1) as [[[b' s2] o2]|] eqn:E2; [|discriminate]. injection E as <- <- <-.
  destruct (Hm _ _ _ _ W E1) as [D1 [P1 [F1 [W1 R1]]]].
  destruct (Hk P1 D1 a (fintro_all_incl _ _ _ F1) R1 _ _ _ _ W1 E2) as [D2 [P2 [F2 [W2 Q2]]]].
  exists D2, P2. rewrite fintro_all_app, F1. auto.
Qed.
Lemma wf_weaken : forall A P D (m : M A) (R Q : list var -> list var -> A -> Prop), wf P D m R ->
  (forall P' D' a, incl D D' -> R P' D' a -> Q P' D' a) -> wf P D m Q.
Proof.
  intros A P D m R Q H HQ s a s' em W E. destruct (H _ _ _ _ W E) as [D1 [P1 [F1 [W1 R1]]]].
  exists D1, P1. split; [auto|]. split; [auto|]. apply HQ; auto. apply (fintro_all_incl _ _ _ F1).
Qed.

Lemma wfq_ret : forall A D (a : A) (Q : list var -> A -> Prop), Q D a -> wfq D (ret a) Q.
Proof. intros A D a Q H P. apply wf_ret. auto. Qed.
Lemma wfq_fail : forall A D Q, wfq D (@fail PF A) Q.
Proof. intros A D Q P. apply wf_fail. Qed.
Lemma wfq_bind : forall A B D (m : M A) (k : A -> M B) R Q, wfq D m R ->
  (forall D1 a, incl D D1 -> R D1 a -> wfq D1 (k a) Q) -> wfq D (bind m k) Q.
Proof.
  intros A B D m k R Q Hm Hk P. eapply wf_bind; [apply Hm|]. intros P1 D1 a Hi [-> Ha]. apply Hk; auto.
Qed.
Lemma wfq_weaken : forall A D (m : M A) (R Q : list var -> A -> Prop), wfq D m R ->
  (forall D' a, incl D D' -> R D' a -> Q D' a) -> wfq D m Q.
Proof. intros A D m R Q H HQ P. eapply wf_weaken; [apply H|]. cbn. intros P' D' a Hi [-> Ha]. auto. Qed.
Lemma wfq_assert : forall D b (Q : list var -> unit -> Prop), Q D tt -> wfq D (assertM b) Q.
Proof. intros D [|] Q H; [apply wfq_ret; auto|apply wfq_fail]. Qed.

(** primitive steps *)
Lemma vnew_S : forall n, vnew (S n) = vnew n + 1.
Proof. intros. unfold vnew. lia. Qed.
Lemma wf_fresh : forall P D, wf P D fresh (fun P' D' v => P' = v :: P /\ D' = D).
Proof.
  intros P D s a s' em W E. injection E as <- <- <-. exists D, (vnew (nxt s) :: P). split; [auto|]. split; [|auto].
  destruct W. pose proof (vnew_S (nxt s)) as HS. split; cbn [nxt lay cache]; auto.
  - intros v [H|[<-|H]]; rewrite HS.
    + specialize (wi_range0 v (or_introl H)). lia.
    + unfold vnew. lia.
    + specialize (wi_range0 v (or_intror H)). lia.
  - constructor; auto. intros H. specialize (wi_range0 _ (or_intror H)). lia.
  - intros v [<-|H] Hd; [specialize (wi_range0 _ (or_introl Hd)); lia|]. apply (wi_disj0 v); auto.
  - intros [H|H]; auto. unfold vnew, vone in H. lia.
Qed.
Lemma wf_fbind : forall B P D (k : var -> M B) Q, (forall v, wf (v :: P) D (k v) Q) -> wf P D (bind fresh k) Q.
Proof. intros B P D k Q H. eapply wf_bind; [apply wf_fresh|]. cbn. intros P1 D1 a _ [-> ->]. apply H. Qed.
Lemma wf_freshn : forall n P D, wf P D (freshn n) (fun P' D' vs => P' = rev vs ++ P /\ D' = D /\ length vs = n).
Proof.
  induction n as [|n IH]; intros P D; cbn [freshn]; [apply wf_ret; auto|].
  apply wf_fbind. intros v. eapply wf_bind; [apply IH|]. cbn. intros P1 D1 vs _ [-> [-> Hl]]. apply wf_ret.
  split; [|split; cbn; auto]. cbn. rewrite <- app_assoc. auto.
Qed.
Lemma wf_def : forall P P' v D e err (Q : list var -> list var -> unit -> Prop), Permutation P (v :: P') -> incl (fvars e) D -> Q P' (v :: D) tt ->
  wf P D (emit (XDef v e err)) Q.
Proof.
  intros P P' v D e err Q Hp He HQ s a s' em W E. injection E as <- <- <-. exists (v :: D), P'.
  assert (Hv : In v P) by (apply (Permutation_in _ (Permutation_sym Hp)); left; auto).
  assert (Hsub : forall u, In u P' -> In u P) by (intros u Hu; apply (Permutation_in _ (Permutation_sym Hp)); right; auto).
  destruct W. cbn [fintro_all fintro].
  assert (E1 : subset (fvars e) D = true) by (apply subset_incl; auto).
  assert (E2 : mem v D = false) by (destruct (mem v D) eqn:Em; auto; apply mem_In in Em; exfalso; apply (wi_disj0 v); auto).
  rewrite E1, E2. cbn [andb negb]. split; [auto|]. split; [|auto].
  assert (Hnd : NoDup (v :: P')) by (apply (Permutation_NoDup Hp); auto). inversion Hnd as [|? ? Hn1 Hn2]; subst.
  split; auto.
  - intros u [[<-|H]|H]; apply wi_range0; auto.
  - intros u Hu [<-|Hd]; [auto|]. apply (wi_disj0 u); auto.
  - intros x u Hx. right. eauto.
  - intros k bits ex Hk u Hu. right. eapply wi_cache0; eauto.
Qed.
Lemma wf_cond : forall P D l q err (Q : list var -> list var -> unit -> Prop), incl (fvars l) D -> incl (fvars q) D -> Q P D tt -> wf P D (emit (XCond l q err)) Q.
Proof.
  intros P D l q err Q Hl Hq HQ s a s' em W E. injection E as <- <- <-. exists D, P. cbn [fintro_all fintro].
  assert (E1 : subset (fvars l ++ fvars q) D = true) by (apply subset_incl; apply incl_app; auto). rewrite E1. auto.
Qed.
Lemma wf_conds : forall l P D (Q : list var -> list var -> unit -> Prop), Forall (fun s => match s with XCond l q _ => incl (fvars l) D /\ incl (fvars q) D | XNote _ => True | XLog _ es => incl (lvars es) D | _ => False end) l -> Q P D tt -> wf P D (emits l) Q.
Proof.
  intros l P D Q H HQ s a s' em W E. injection E as <- <- <-. exists D, P. split; [|auto].
  induction H as [|x r Hx Hr IH]; auto. cbn [fintro_all]. destruct x as [| l q e| |f es|]; try contradiction; cbn [fintro]; auto.
  - destruct Hx as [Hl Hq]. assert (E1 : subset (fvars l ++ fvars q) D = true) by (apply subset_incl; apply incl_app; auto). rewrite E1. auto.
  - assert (E1 : subset (flat_map fvars es) D = true) by (apply subset_incl; auto). rewrite E1. auto.
Qed.
Lemma NoDup_nodupb : forall l, NoDup l -> nodupb l = true.
Proof.
  induction 1 as [|x l Hx Hl IH]; auto. cbn [nodupb]. rewrite IH, andb_true_r. destruct (mem x l) eqn:E; auto. apply mem_In in E. contradiction.
Qed.
Lemma wf_dir : forall P P' outs D sv ins (Q : list var -> list var -> unit -> Prop), Permutation P (outs ++ P') -> incl (lvars ins) D ->
  length ins = fst (solver_sig sv) -> length outs = snd (solver_sig sv) -> Q P' (outs ++ D) tt -> wf P D (emit (XDir outs sv ins)) Q.
Proof.
  intros P P' outs D sv ins Q Hp He Hi Ho HQ s a s' em W E. injection E as <- <- <-. exists (outs ++ D), P'.
  assert (Hv : forall v, In v outs -> In v P) by (intros v Hv; apply (Permutation_in _ (Permutation_sym Hp)); apply in_or_app; auto).
  assert (Hsub : forall u, In u P' -> In u P) by (intros u Hu; apply (Permutation_in _ (Permutation_sym Hp)); apply in_or_app; auto).
  destruct W. cbn [fintro_all fintro].
  assert (Hnd : NoDup (outs ++ P')) by (apply (Permutation_NoDup Hp); auto).
  assert (Hno : NoDup outs /\ NoDup P' /\ forall v, In v outs -> ~ In v P').
  { clear - Hnd. induction outs as [|x r IH]; cbn [app] in Hnd; [repeat split; auto; constructor|]. inversion Hnd as [|? ? H1 H2]; subst.
    destruct (IH H2) as [A [B C]]. split; [constructor; auto; intros H; apply H1, in_or_app; auto|]. split; auto.
    intros v [<-|H]; auto. intros H3. apply H1, in_or_app; auto. }
  destruct Hno as [N1 [N2 N3]].
  assert (E1 : subset (flat_map fvars ins) D = true) by (apply subset_incl; auto).
  assert (E3 : forallb (fun o => negb (mem o D) && negb (is_output o)) outs = true).
  { apply forallb_forall. intros o Hin. apply Hv in Hin. apply andb_true_intro. split.
    - apply negb_true_iff. destruct (mem o D) eqn:Em; auto. apply mem_In in Em. exfalso. apply (wi_disj0 o); auto.
    - apply negb_true_iff. unfold is_output. apply Z.ltb_ge. apply (wi_range0 o); auto. }
  rewrite E1, (NoDup_nodupb _ N1), E3, Hi, Ho, !Nat.eqb_refl. cbn [andb]. split; [auto|]. split; [|auto]. split; auto.
  - intros u [H|H]; [apply in_app_or in H as [H|H]|]; apply wi_range0; auto.
  - intros u Hu Hd. apply in_app_or in Hd as [Hd|Hd]; [apply (N3 u); auto|]. apply (wi_disj0 u); auto.
  - intros x u Hx. apply in_or_app. right. eauto.
  - intros k bits ex Hk u Hu. apply in_or_app. right. eapply wi_cache0; eauto.
Qed.
Lemma wfq_cond : forall D l q err (Q : list var -> unit -> Prop), incl (fvars l) D -> incl (fvars q) D -> Q D tt -> wfq D (emit (XCond l q err)) Q.
Proof. intros. intros P. apply wf_cond; auto. Qed.
Lemma wfq_set_lay : forall D x v (Q : list var -> unit -> Prop), In v D -> Q D tt -> wfq D (set_lay x v) Q.
Proof.
  intros D x v Q Hv HQ P s a s' em W E. injection E as <- <- <-. exists D, P. split; auto. split; auto.
  destruct W. split; cbn [nxt lay cache]; auto. intros y u H. cbn [lookup] in H. destruct (y =? x); [injection H as <-; auto|eauto].
Qed.
Lemma wfq_get_lay : forall D x, wfq D (get_lay x) (fun D' v => In v D').
Proof.
  intros D x P s a s' em W E. unfold get_lay in E. destruct (lookup x (lay s)) as [v|] eqn:El; [|discriminate]. injection E as <- <- <-.
  exists D, P. split; auto. split; auto. split; auto. destruct W. eauto.
Qed.
Lemma clookup_In : forall k l e, clookup k l = Some e -> exists k', In (k', e) l.
Proof.
  intros k l. induction l as [|[k' e'] r IH]; intros e H; [discriminate|]. cbn [clookup] in H.
  destruct (fexp_eqb k k'); [injection H as <-; eexists; left; eauto|]. destruct (IH _ H) as [k2 H2]. exists k2. right. auto.
Qed.
Lemma wfq_cget : forall D k, wfq D (cget k) (fun D' h => match h with Some (bits, _) => incl (lvars bits) D' | None => True end).
Proof.
  intros D k P s a s' em W E. injection E as <- <- <-. exists D, P. split; auto. split; auto. split; auto.
  destruct (clookup k (cache s)) as [[bits ex]|] eqn:E; auto. apply clookup_In in E as [k' E]. destruct W. eapply wi_cache0; eauto.
Qed.
Lemma wfq_cput : forall D k bits ex (Q : list var -> unit -> Prop), incl (lvars bits) D -> Q D tt -> wfq D (cput k bits ex) Q.
Proof.
  intros D k bits ex Q Hb HQ P s a s' em W E. injection E as <- <- <-. exists D, P. split; auto. split; auto.
  destruct W. split; cbn [nxt lay cache]; auto. intros k' b' e' [H|H]; [injection H as <- <- <-; auto|eauto].
Qed.

(** lists of variables *)
Lemma lvars_app : forall a b, lvars (a ++ b) = lvars a ++ lvars b.
Proof. intros. apply flat_map_app. Qed.
Lemma lvars_ids : forall vs, lvars (map XId vs) = vs.
Proof. induction vs; cbn; auto. f_equal. auto. Qed.
Lemma lvars_vals : forall {A} (f : A -> F) l, lvars (map (fun x => XVal (f x)) l) = [].
Proof. induction l; cbn; auto. Qed.
Lemma lvars_zeros : forall n, lvars (repeat (XVal f0) n) = [].
Proof. induction n; cbn; auto. Qed.
Lemma lvars_firstn : forall n l, incl (lvars (firstn n l)) (lvars l).
Proof. intros n l x H. unfold lvars in *. apply in_flat_map in H as [e [H1 H2]]. apply in_flat_map. exists e. split; auto.
  rewrite <- (firstn_skipn n l). apply in_or_app; auto. Qed.
Lemma lvars_skipn : forall n l, incl (lvars (skipn n l)) (lvars l).
Proof. intros n l x H. unfold lvars in *. apply in_flat_map in H as [e [H1 H2]]. apply in_flat_map. exists e. split; auto.
  rewrite <- (firstn_skipn n l). apply in_or_app; auto. Qed.
Lemma lvars_in : forall e l, In e l -> incl (fvars e) (lvars l).
Proof. intros e l H x Hx. apply in_flat_map. eauto. Qed.
Lemma lvars_incl : forall l D, incl (lvars l) D <-> Forall (fun e => incl (fvars e) D) l.
Proof.
  intros l D. split.
  - intros H. apply Forall_forall. intros e He. eapply incl_tran; [apply lvars_in; eauto|auto].
  - intros H x Hx. apply in_flat_map in Hx as [e [H1 H2]]. rewrite Forall_forall in H. apply (H e); auto.
Qed.
Lemma fsum_vars : forall es, incl (fvars (fsum es)) (lvars es).
Proof.
  intros es. unfold fsum. assert (H : forall acc, incl (fvars (fold_left XAdd es acc)) (fvars acc ++ lvars es)).
  { induction es as [|e r IH]; intros acc; cbn [fold_left].
    - cbn. rewrite app_nil_r. apply incl_refl.
    - eapply incl_tran; [apply IH|]. cbn [fvars lvars flat_map]. rewrite <- app_assoc. apply incl_refl. }
  exact (H (XVal f0)).
Qed.
Lemma ffb_aux_vars : forall fuel l, incl (fvars (ffb_aux fuel l)) (lvars (map snd l)).
Proof.
  induction fuel as [|n IH]; intros l; cbn [ffb_aux]; [intros x []|]. destruct l as [|[c e] [|q r]]; [intros x []| |].
  - cbn. rewrite app_nil_r. apply incl_refl.
  - set (ll := (c, e) :: q :: r). cbv zeta. generalize (Nat.div (length ll) 2). intros h. cbn [fvars]. apply incl_app; eapply incl_tran; try apply IH.
    + rewrite <- firstn_map. apply lvars_firstn.
    + rewrite <- skipn_map. apply lvars_skipn.
Qed.
Lemma weigh_snd : forall l i, map snd (weigh i l) = l.
Proof. induction l; intros i; cbn; auto. f_equal. auto. Qed.
Lemma ffb_vars : forall l, incl (fvars (ffb l)) (lvars l).
Proof.
  intros l. unfold ffb. eapply incl_tran; [apply ffb_aux_vars|]. rewrite weigh_snd.
  intros x H. apply in_flat_map in H as [e [H1 H2]]. apply in_rev in H1. apply in_flat_map. eauto.
Qed.
Definition uok (D : list var) (u : fu) : Prop := incl (fvars (getf u)) D /\ match getbits u with Some b => incl (lvars b) D | None => True end.
Lemma uok_mono : forall D D' u, incl D D' -> uok D u -> uok D' u.
Proof. intros D D' u H [H1 H2]. split; [eapply incl_tran; eauto|]. destruct (getbits u); auto. eapply incl_tran; eauto. Qed.
Lemma uok_UF : forall D f, incl (fvars f) D -> uok D (UF f None).
Proof. intros. split; cbn; auto. Qed.
Lemma uok_UB : forall D b, incl (lvars b) D -> uok D (UB b).
Proof. intros. split; cbn; auto. eapply incl_tran; [apply ffb_vars|auto]. Qed.

Hint Resolve incl_refl incl_nil_l : wf.
Lemma incl_cons' : forall (a : var) D l, In a D -> incl l D -> incl (a :: l) D.
Proof. intros. intros x [<-|H1]; auto. Qed.

(** basic helpers of the generator *)
Definition vin (D : list var) (v : var) : Prop := In v D.
Definition ein (D : list var) (e : fexp) : Prop := incl (fvars e) D.
Definition lin (D : list var) (l : list fexp) : Prop := incl (lvars l) D.
Lemma ein_mono : forall D D' e, incl D D' -> ein D e -> ein D' e.
Proof. intros. eapply incl_tran; eauto. Qed.
Lemma lin_mono : forall D D' e, incl D D' -> lin D e -> lin D' e.
Proof. intros. eapply incl_tran; eauto. Qed.
Lemma ein_id : forall D v, vin D v -> ein D (XId v).
Proof. intros D v H x [<-|[]]. auto. Qed.
Lemma ein_val : forall D c, ein D (XVal c).
Proof. intros D c x []. Qed.
Lemma ein_add : forall D a b, ein D a -> ein D b -> ein D (XAdd a b).
Proof. intros. apply incl_app; auto. Qed.
Lemma ein_sub : forall D a b, ein D a -> ein D b -> ein D (XSub a b).
Proof. intros. apply incl_app; auto. Qed.
Lemma ein_mul : forall D a b, ein D a -> ein D b -> ein D (XMul a b).
Proof. intros. apply incl_app; auto. Qed.
Lemma lin_nil : forall D, lin D [].
Proof. intros D x []. Qed.
Lemma lin_cons : forall D e l, ein D e -> lin D l -> lin D (e :: l).
Proof. intros. apply incl_app; auto. Qed.
Lemma lin_hd : forall D e l, lin D (e :: l) -> ein D e.
Proof. intros D e l H x Hx. apply H. apply in_or_app; auto. Qed.
Lemma lin_tl : forall D e l, lin D (e :: l) -> lin D l.
Proof. intros D e l H x Hx. apply H. apply in_or_app; auto. Qed.
Lemma vin_mono : forall D D' v, incl D D' -> vin D v -> vin D' v.
Proof. intros D D' v H Hv. apply H. auto. Qed.
Lemma vin_here : forall D v, vin (v :: D) v.
Proof. intros. left. auto. Qed.
Lemma vin_there : forall D u v, vin D v -> vin (u :: D) v.
Proof. intros. right. auto. Qed.

Lemma lin_app : forall D a b, lin D a -> lin D b -> lin D (a ++ b).
Proof. intros D a b Ha Hb. unfold lin. rewrite lvars_app. apply incl_app; auto. Qed.
Lemma lin_zeros : forall D n, lin D (repeat (XVal f0) n).
Proof. intros D n. unfold lin. rewrite lvars_zeros. intros x []. Qed.
Lemma lin_vals : forall D l, lin D (map XVal l).
Proof. intros D l x H. induction l; cbn in H; [destruct H|auto]. Qed.
Lemma lin_skipn : forall D n l, lin D l -> lin D (skipn n l).
Proof. intros D n l H. eapply incl_tran; [apply lvars_skipn|auto]. Qed.
Lemma lin_firstn : forall D n l, lin D l -> lin D (firstn n l).
Proof. intros D n l H. eapply incl_tran; [apply lvars_firstn|auto]. Qed.
Lemma lin_ids : forall D vs, incl vs D -> lin D (map XId vs).
Proof. intros. unfold lin. rewrite lvars_ids. auto. Qed.
Lemma lin_Forall : forall D l, lin D l <-> Forall (ein D) l.
Proof. intros. apply lvars_incl. Qed.
Lemma ein_fsum : forall D l, lin D l -> ein D (fsum l).
Proof. intros D l H. eapply incl_tran; [apply fsum_vars|auto]. Qed.
Lemma ein_ffb : forall D l, lin D l -> ein D (ffb l).
Proof. intros D l H. eapply incl_tran; [apply ffb_vars|auto]. Qed.
Lemma uok_f : forall D u, uok D u -> ein D (getf u).
Proof. intros D u [H _]. auto. Qed.
Lemma uok_UF' : forall D f, ein D f -> uok D (UF f None).
Proof. intros. apply uok_UF. auto. Qed.
Lemma uok_UB' : forall D b, lin D b -> uok D (UB b).
Proof. intros. apply uok_UB. auto. Qed.
Lemma wfq_get_lay' : forall D x, wfq D (get_lay x) vin.
Proof. exact wfq_get_lay. Qed.
Lemma wfq_cond' : forall D l q err, ein D l -> ein D q -> wfq D (emit (XCond l q err)) (fun _ _ => True).
Proof. intros. apply wfq_cond; auto. Qed.
Lemma wfq_conds' : forall D l, Forall (fun s => match s with XCond l q _ => ein D l /\ ein D q | XNote _ => True | XLog _ es => lin D es | _ => False end) l ->
  wfq D (emits l) (fun _ _ => True).
Proof. intros D l H P. apply wf_conds; auto. Qed.
Lemma wfq_assert' : forall D b, wfq D (assertM b) (fun _ _ => True).
Proof. intros. apply wfq_assert. auto. Qed.
Lemma wfq_cput' : forall D k b e, lin D b -> wfq D (cput k b e) (fun _ _ => True).
Proof. intros. apply wfq_cput; auto. Qed.
Lemma incl_tl' : forall (v : var) D, incl D (v :: D).
Proof. intros v D x H. right. auto. Qed.
Lemma wfq_def1 : forall B D e err (k : var -> M B) Q, ein D e ->
  (forall D1 v, incl D D1 -> vin D1 v -> wfq D1 (k v) Q) -> wfq D (v <- fresh ;; emit (XDef v e err) ;;; k v) Q.
Proof.
  intros B D e err k Q He Hk P. apply wf_fbind. intros v. eapply wf_bind.
  - eapply (wf_def _ P v D e err (fun P' D' _ => P' = P /\ D' = v :: D)); auto.
  - intros P1 D1 tt0 Hi [-> ->]. apply Hk; auto. left; auto.
Qed.
Lemma wfq_dir1 : forall B D sv ins (k : var -> M B) Q, lin D ins -> length ins = fst (solver_sig sv) -> 1%nat = snd (solver_sig sv) ->
  (forall D1 v, incl D D1 -> vin D1 v -> wfq D1 (k v) Q) -> wfq D (v <- fresh ;; emit (XDir [v] sv ins) ;;; k v) Q.
Proof.
  intros B D sv ins k Q He H1 H2 Hk P. apply wf_fbind. intros v. eapply wf_bind.
  - eapply (wf_dir _ P [v] D sv ins (fun P' D' _ => P' = P /\ D' = v :: D)); auto.
  - intros P1 D1 tt0 Hi [-> ->]. apply Hk; auto. left; auto.
Qed.
Lemma wfq_dir2 : forall B D sv ins (k : var -> var -> M B) Q, lin D ins -> length ins = fst (solver_sig sv) -> 2%nat = snd (solver_sig sv) ->
  (forall D1 u v, incl D D1 -> vin D1 u -> vin D1 v -> wfq D1 (k u v) Q) ->
  wfq D (u <- fresh ;; v <- fresh ;; emit (XDir [u; v] sv ins) ;;; k u v) Q.
Proof.
  intros B D sv ins k Q He H1 H2 Hk P. apply wf_fbind. intros u. apply wf_fbind. intros v. eapply wf_bind.
  - eapply (wf_dir _ P [u; v] D sv ins (fun P' D' _ => P' = P /\ D' = u :: v :: D)); auto. cbn. apply perm_swap.
  - intros P1 D1 tt0 Hi [-> ->]. apply Hk; auto; [left; auto|right; left; auto].
Qed.
Lemma wfq_dirn : forall B D n ins (k : list var -> M B) Q, lin D ins -> length ins = 1%nat ->
  (forall D1 vs, incl D D1 -> incl vs D1 -> length vs = n -> wfq D1 (k vs) Q) ->
  wfq D (vs <- freshn n ;; emit (XDir vs (SBits n) ins) ;;; k vs) Q.
Proof.
  intros B D n ins k Q He H1 Hk P. eapply wf_bind; [apply wf_freshn|]. cbn. intros P1 D0 vs _ [-> [-> Hl]]. eapply wf_bind.
  - eapply (wf_dir _ P vs D (SBits n) ins (fun P' D' _ => P' = P /\ D' = vs ++ D)); auto. apply Permutation_app_tail, Permutation_sym, Permutation_rev.
  - intros P1 D1 tt0 Hi [-> ->]. apply Hk; auto. intros x Hx. apply in_or_app; auto.
Qed.
End CgWf.

Create HintDb wf.
#[export] Hint Resolve ein_id ein_val ein_add ein_sub ein_mul lin_nil lin_cons vin_here uok_UF' uok_UB' uok_f lin_app lin_zeros lin_vals lin_skipn lin_firstn
  lin_ids ein_fsum ein_ffb wfq_cond' wfq_conds' wfq_assert' wfq_cput' wfq_get_lay' wfq_cget wfq_fail : wf.
#[export] Hint Extern 1 (ein _ one) => apply ein_val : wf.
#[export] Hint Extern 1 True => exact I : wf.
Ltac up Hi := match type of Hi with incl ?D ?D1 => repeat match goal with
  | H : ein D _ |- _ => apply (ein_mono D D1 _ Hi) in H
  | H : lin D _ |- _ => apply (lin_mono D D1 _ Hi) in H
  | H : uok D _ |- _ => apply (uok_mono D D1 _ Hi) in H
  | H : vin D _ |- _ => apply (vin_mono D D1 _ Hi) in H
  | H : incl _ D |- _ => match type of H with incl D D => fail 1 | _ => apply (fun h => incl_tran h Hi) in H end
  end; clear Hi end.
Ltac wfb := eapply wfq_bind; [solve [eauto 9 with wf]|let D1 := fresh "D" in let a := fresh "a" in let Hi := fresh "Hi" in let Hr := fresh "Hr" in
  intros D1 a Hi Hr; cbn beta in Hr; up Hi].
Ltac wfs := first
  [ apply wfq_ret; cbn beta; solve [eauto 8 with wf]
  | apply wfq_fail
  | eapply wfq_def1; [solve [eauto 9 with wf]|let D1 := fresh "D" in let v := fresh "v" in let Hi := fresh "Hi" in let Hv := fresh "Hv" in intros D1 v Hi Hv; up Hi]
  | eapply wfq_dir1; [solve [eauto 9 with wf]|reflexivity|reflexivity|let D1 := fresh "D" in let v := fresh "v" in let Hi := fresh "Hi" in let Hv := fresh "Hv" in intros D1 v Hi Hv; up Hi]
  | eapply wfq_dir2; [solve [eauto 9 with wf]|reflexivity|reflexivity|let D1 := fresh "D" in let v := fresh "v" in let u := fresh "u" in let Hi := fresh "Hi" in let Hu := fresh "Hu" in let Hv := fresh "Hv" in intros D1 u v Hi Hu Hv; up Hi]
  | eapply wfq_dirn; [solve [eauto 9 with wf]|reflexivity|let D1 := fresh "D" in let v := fresh "vs" in let Hi := fresh "Hi" in let Hv := fresh "Hv" in let Hl := fresh "Hl" in intros D1 v Hi Hv Hl; up Hi]
  | wfb
  | match goal with |- wfq _ (match ?x with _ => _ end) _ => destruct x end
  | eapply wfq_weaken; [solve [eauto 9 with wf]|let D1 := fresh "D" in let a := fresh "a" in let Hi := fresh "Hi" in let Hr := fresh "Hr" in
      intros D1 a Hi Hr; cbn beta in Hr |- *; up Hi; solve [eauto 8 with wf]] ].
Ltac wft := repeat wfs.

Section CgWf2.
Context {PF : PrimeField}.
Lemma wfq_newdef : forall D e, ein D e -> wfq D (newdef e) vin.
Proof. intros D e H. unfold newdef. wft. Qed.
Lemma wfq_define : forall D e, ein D e -> wfq D (define e) vin.
Proof.
  intros D e H. assert (H' : wfq D (v <- fresh ;; emit (XDef v e None) ;;; ret v) vin) by wft.
  destruct e; cbn [define]; auto. apply wfq_ret. apply H. left. auto.
Qed.
#[local] Hint Resolve wfq_newdef wfq_define : wf.
Lemma wfq_linearise : forall D e, ein D e -> wfq D (linearise e) ein.
Proof. intros D e H. unfold linearise. destruct (is_linear e); wft. Qed.
#[local] Hint Resolve wfq_linearise : wf.
Lemma bitness_ok : forall D l, lin D l -> Forall (fun s => match s with XCond l q _ => ein D l /\ ein D q | XNote _ => True | XLog _ es => lin D es | _ => False end) (map bitness l).
Proof.
  intros D l H. apply lin_Forall in H. induction H; cbn [map]; constructor; auto. cbn. split; auto with wf.
Qed.
Lemma note_ok : forall D (c : bool) b, Forall (fun s => match s with XCond l q _ => ein D l /\ ein D q | XNote _ => True | XLog _ es => lin D es | _ => False end) (if c then [XNote b] else []).
Proof. intros D [|] b; auto. Qed.
#[local] Hint Resolve bitness_ok note_ok : wf.
Lemma wfq_get_bits : forall D e a b err, uok D e -> wfq D (get_bits e a b err) lin.
Proof.
  intros D e a b err H. unfold get_bits. wfb. wfb.
  destruct e as [f [bits|]|bits].
  - destruct H as [_ H]. cbn [getbits] in H. assert (H' : lin D1 bits) by auto.
    destruct f; wft.
  - pose proof (uok_f _ _ H) as Hf. cbn [getf] in Hf.
    assert (A : wfq D1 (hit <- cget f ;;
      match hit with
      | Some (bits, exact) =>
          let drop := firstn (length bits - b) bits in
          let res := skipn (length bits - b) bits in
          emits (if negb exact && (Nat.leb a b || Nat.ltb (length bits) b) then [XNote true] else []) ;;;
          emits (if Nat.ltb b a && Nat.ltb b (length bits) then [XNote false] else []) ;;;
          emit (XCond (XVal f0) (fsum drop) err) ;;;
          ret (repeat (XVal f0) (b - length res) ++ res)
      | None =>
          let from' := Nat.max a b in
          vs <- freshn from' ;;
          emit (XDir vs (SBits from') [f]) ;;;
          let bits := map XId vs in
          emits (map bitness bits) ;;;
          emit (XCond f (ffb bits) err) ;;;
          let res := skipn (from' - b) bits in
          cput f res (Nat.eqb from' b) ;;;
          cput (ffb bits) res (Nat.eqb from' b) ;;;
          ret res
      end) lin).
    { eapply wfq_bind; [apply wfq_cget|]. intros D2 hit Hi Hh. up Hi. cbn beta in Hh. destruct hit as [[bits ex]|].
      - change (lin D2 bits) in Hh. cbv zeta. wft.
      - cbv zeta. wft. }
    destruct f; auto. wft.
  - destruct H as [_ H]. cbn [getbits] in H. assert (H' : lin D1 bits) by auto. wft.
Qed.
#[local] Hint Resolve wfq_get_bits : wf.
Lemma wfq_mapM : forall A B (R : list var -> B -> Prop) (f : A -> M B) l D, (forall D D' b, incl D D' -> R D b -> R D' b) ->
  Forall (fun x => forall D', incl D D' -> wfq D' (f x) R) l -> wfq D (mapM f l) (fun D' r => Forall (R D') r).
Proof.
  intros A B R f l D Hm H. revert D H. induction l as [|x l IH]; intros D H; cbn [mapM]; [apply wfq_ret; constructor|].
  inversion H as [|? ? H1 H2]; subst. eapply wfq_bind; [apply H1; apply incl_refl|]. intros D1 y Hi Hy. cbn beta.
  eapply wfq_bind; [apply IH|].
  - eapply Forall_impl; [|exact H2]. cbn. intros z Hz D' Hi'. apply Hz. eapply incl_tran; eauto.
  - intros D2 ys Hi2 Hys. apply wfq_ret. constructor; eauto.
Qed.
Lemma Forall_vin : forall D vs, Forall (vin D) vs -> incl vs D.
Proof. intros D vs H x Hx. rewrite Forall_forall in H. apply H; auto. Qed.
(** the pairs of variables issued beforehand by constant_le_check *)
Fixpoint pvars (prs : list (var * var)) : list var := match prs with [] => [] | (r, s) :: q => r :: s :: pvars q end.
Lemma wf_pairs : forall (b : list bool) P D, wf P D (mapM (fun _ : bool => r <- fresh ;; s <- fresh ;; ret (r, s)) b)
  (fun P' D' prs => Permutation P' (pvars prs ++ P) /\ D' = D /\ length prs = length b).
Proof.
  induction b as [|x b IH]; intros P D; cbn [mapM]; [apply wf_ret; cbn; auto|].
  eapply wf_bind.
  - apply wf_fbind. intros r. apply wf_fbind. intros u. apply wf_ret with (Q := fun P' D' q => P' = snd q :: fst q :: P /\ D' = D). auto.
  - intros P1 D1 [r u] _ [-> ->]. cbn [fst snd]. eapply wf_bind; [apply IH|]. intros P2 D2 prs _ [Hp [-> Hl]]. apply wf_ret.
    split; [|split; [auto|cbn; congruence]]. cbn [pvars app]. eapply Permutation_trans; [exact Hp|].
    eapply Permutation_trans; [apply Permutation_sym, Permutation_middle|]. eapply Permutation_trans; [apply perm_skip, Permutation_sym, Permutation_middle|].
    apply perm_swap.
Qed.
(** pending variables may be forgotten *)
Lemma WInv_forget : forall D P P' s, WInv D P s -> NoDup P' -> incl P' P -> WInv D P' s.
Proof.
  intros D P P' s [] Hn Hi. split; auto.
  - intros v [H|H]; auto.
Qed.
Lemma wf_clc_loop : forall a b prs P D, lin D a -> length a = length b -> length prs = length b -> forall su0,
  Permutation P (match prs with (r, s) :: q => r :: pvars q | [] => [] end ++ su0) -> (match prs with (_, s) :: _ => vin D s | [] => True end) ->
  wf P D (clc_loop a b prs) (fun P' D' r => (exists L, Permutation P' (L ++ su0)) /\ lin D' r).
Proof.
  induction a as [|x a IH]; intros [|[|] b] [|[r u] prs] P D Ha Hl1 Hl2 su0 Hp Hu; cbn [length] in Hl1, Hl2; try discriminate; cbn [clc_loop].
  - apply wf_ret. split; [|auto with wf]. exists []. auto.
  - pose proof (lin_hd _ _ _ Ha) as Hx. apply lin_tl in Ha. eapply wf_bind.
    { eapply (wf_def _ (pvars prs ++ su0) r D x None (fun P' D' _ => P' = pvars prs ++ su0 /\ D' = r :: D)); auto. }
    intros P1 D1 tt0 Hi [-> ->]. cbn beta. pose proof (lin_mono _ _ _ Hi Ha) as Ha'. pose proof (vin_mono _ _ _ Hi Hu) as Hu'.
    eapply wf_bind with (R := fun P' D' _ => Permutation P' (match prs with (r, s) :: q => r :: pvars q | [] => [] end ++ su0) /\ incl (r :: D) D' /\ match prs with (_, s) :: _ => vin D' s | [] => True end).
    { destruct prs as [|[r2 u2] prs]; [apply wf_ret; repeat split; auto using incl_refl|].
      eapply (wf_def _ (r2 :: pvars prs ++ su0) u2); [cbn [pvars app]; apply perm_swap|apply ein_mul; auto with wf|].
      split; [cbn; auto|]. split; [intros z Hz; right; auto|left; auto]. }
    intros P2 D2 tt1 Hi2 [Hp2 [Hi3 Hu2]]. apply IH; auto; try lia. eapply lin_mono; [|exact Ha']. auto.
  - pose proof (lin_hd _ _ _ Ha) as Hx. apply lin_tl in Ha.
    eapply wf_bind with (R := fun P' D' _ => Permutation P' (match prs with (r, s) :: q => r :: pvars q | [] => [] end ++ (r :: su0)) /\ incl D D' /\ match prs with (_, s) :: _ => vin D' s | [] => True end).
    { destruct prs as [|[r2 u2] prs]; [apply wf_ret; repeat split; auto using incl_refl|].
      eapply (wf_def _ (r :: r2 :: pvars prs ++ su0) u2); [|apply ein_id; auto|].
      - eapply Permutation_trans; [exact Hp|]. cbn [pvars app]. eapply Permutation_trans; [apply perm_skip, perm_swap|]. apply perm_swap.
      - split; [|split; [intros z Hz; right; auto|left; auto]]. cbn [app]. apply (Permutation_middle (r2 :: pvars prs) su0 r). }
    intros P2 D2 tt1 Hi2 [Hp2 [Hi3 Hu2]]. cbn beta.
    pose proof (ein_mono _ _ _ Hi3 Hx). pose proof (vin_mono _ _ _ Hi3 Hu).
    apply wf_fbind. intros v. eapply wf_bind.
    { eapply (wf_def _ P2 v D2 _ None (fun P' D' _ => P' = P2 /\ D' = v :: D2)); [auto|change (ein D2 (XMul (XSub one (XId u)) (XSub one x))); auto 6 with wf|auto]. }
    intros P3 D3 tt2 Hi4 [-> ->]. cbn beta. eapply wf_bind; [apply (IH b prs P2 (v :: D2)) with (su0 := r :: su0); auto; try lia|].
    + eapply lin_mono; [|exact Ha]. eapply incl_tran; eauto.
    + destruct prs as [|[? ?] ?]; auto. right; auto.
    + intros P4 D4 rest Hi6 [[L HL] Hr]. apply wf_ret. split.
      * exists (L ++ [r]). rewrite <- app_assoc. auto.
      * assert (HD : incl D D4) by (eapply incl_tran; [exact Hi3|]; eapply incl_tran; [exact Hi4|]; auto).
        apply lin_cons; auto. pose proof (ein_mono _ _ _ HD Hx). pose proof (vin_mono _ _ _ HD Hu). pose proof (vin_mono _ _ _ Hi6 (vin_here D2 v)). auto 6 with wf.
Qed.

Lemma wf_forget : forall A P0 P D (m : M A) (Q : list var -> A -> Prop), NoDup P ->
  wf P0 D m (fun P' D' a => (exists L, Permutation P' (L ++ P)) /\ Q D' a) -> wf P0 D m (fun P' D' a => P' = P /\ Q D' a).
Proof.
  intros A P0 P D m Q Hn H s a s' em W E. destruct (H _ _ _ _ W E) as [D1 [P1 [F1 [W1 [[L HL] HQ]]]]].
  exists D1, P. split; [auto|]. split; [|auto]. apply (WInv_forget _ P1); auto.
  intros x Hx. apply (Permutation_in _ (Permutation_sym HL)). apply in_or_app; auto.
Qed.
Lemma wfq_clc : forall D a b, lin D a -> wfq D (constant_le_check a b) lin.
Proof.
  intros D a b Ha. unfold constant_le_check. destruct (Nat.eqb_spec (length a) (length b)) as [El|_]; [|cbn [assertM]; intros P; eapply wf_bind; [apply wf_fail|]; intros ? ? ? ? H; exact H].
  cbn [assertM]. eapply wfq_bind; [apply wfq_ret with (Q := fun _ _ => True); auto|]. intros D1 tt0 Hi _. up Hi. destruct (forallb (fun x => x) b).
  - eapply wfq_bind; [apply (wfq_mapM _ _ vin define a D1 vin_mono)|].
    + apply lin_Forall in Ha. eapply Forall_impl; [|exact Ha]. cbn. intros e He D' Hi. apply wfq_define. eapply ein_mono; eauto.
    + intros D2 vs Hi Hv. up Hi. apply Forall_vin in Hv. eapply wfq_bind; [apply wfq_conds'|intros; apply wfq_ret; auto with wf].
      apply Forall_forall. intros s Hs. apply in_map_iff in Hs as [v [<- Hin]]. cbn. assert (vin D2 v) by (apply Hv; auto). split; auto with wf.
  - intros P s x s' em W. assert (HnP : NoDup P) by (destruct W; auto). revert s x s' em W. apply wf_forget; auto.
    eapply wf_bind; [apply wf_pairs|]. cbn beta. intros P2 D2 prs Hi [Hp [-> Hl]]. clear Hi.
    eapply wf_bind with (R := fun P' D' _ => Permutation P' (match prs with (r, s) :: q => r :: pvars q | [] => [] end ++ P) /\ incl D1 D' /\ match prs with (_, s) :: _ => vin D' s | [] => True end).
    + destruct prs as [|[r u] prs]; [apply wf_ret; repeat split; auto using incl_refl|].
      eapply (wf_def _ (r :: pvars prs ++ P) u); [|apply ein_val|].
      * eapply Permutation_trans; [exact Hp|]. cbn [pvars app]. apply perm_swap.
      * split; [cbn; auto|]. split; [intros z Hz; right; auto|left; auto].
    + intros P3 D3 tt1 Hi2 [Hp3 [Hi3 Hu]]. cbn beta. apply wf_clc_loop with (su0 := P); auto. eapply lin_mono; eauto.
Qed.
#[local] Hint Resolve wfq_clc : wf.
Lemma wfq_eq_check : forall D a b, ein D a -> ein D b -> wfq D (eq_check a b) ein.
Proof. intros D a b Ha Hb. unfold eq_check. cbv zeta. wft. Qed.
#[local] Hint Resolve wfq_eq_check : wf.
Lemma wfq_elb : forall D a c err, lin D a -> wfq D (enforce_le_bits a c err) (fun _ _ => True).
Proof. intros. unfold enforce_le_bits. wft. Qed.
#[local] Hint Resolve wfq_elb : wf.
Lemma wfq_ecle : forall D e c err, ein D e -> wfq D (enforce_constant_le e c err) (fun _ _ => True).
Proof. intros. unfold enforce_constant_le. wft. Qed.
#[local] Hint Resolve wfq_ecle : wf.
Lemma wfq_eclt : forall D e c err, ein D e -> wfq D (enforce_constant_lt e c err) (fun _ _ => True).
Proof. intros. unfold enforce_constant_lt. wft. Qed.
#[local] Hint Resolve wfq_eclt : wf.
Lemma wfq_cfl : forall D e c, ein D e -> wfq D (constant_field_le e c) ein.
Proof. intros. unfold constant_field_le. wft. Qed.
#[local] Hint Resolve wfq_cfl : wf.
Lemma wfq_clt : forall D e c, ein D e -> wfq D (constant_lt e c) ein.
Proof. intros. unfold constant_lt. wft. Qed.
#[local] Hint Resolve wfq_clt : wf.
Lemma wfq_lt_check : forall D l r n, ein D l -> ein D r -> wfq D (lt_check l r n) ein.
Proof.
  intros D l r n Hl Hr. assert (A : wfq D (li <- define l ;; ri <- define r ;;
      bits <- get_bits (UF (XAdd (XVal (of_Z (pow2 n))) (XSub (XId li) (XId ri))) None) (S n) (S n) eSum ;;
      match bits with b0 :: _ => ret (XSub one b0) | [] => fail end) ein).
  { wfb. wfb. wfb. destruct a1 as [|b0 bs]; [apply wfq_fail|]. apply lin_hd in Hr2. wft. }
  unfold lt_check. destruct r; destruct l; auto; wft.
Qed.
#[local] Hint Resolve wfq_lt_check : wf.
Lemma wfq_le_check : forall D l r n, ein D l -> ein D r -> wfq D (le_check l r n) ein.
Proof. intros. unfold le_check. wft. Qed.
#[local] Hint Resolve wfq_le_check : wf.
Lemma wfq_field_lt : forall D l r, ein D l -> ein D r -> wfq D (field_lt l r) ein.
Proof.
  intros D l r Hl Hr. assert (A : wfq D (enforce_constant_lt l (of_Z (pow2 safe_width)) eIncompleteDynamicRange ;;;
      enforce_constant_lt r (of_Z (pow2 safe_width)) eIncompleteDynamicRange ;;;
      lt_check l r safe_width) ein) by wft.
  unfold field_lt. destruct r; destruct l; auto; wft.
Qed.
#[local] Hint Resolve wfq_field_lt : wf.
Lemma wfq_cond_flat : forall D c x y, vin D c -> ein D x -> ein D y -> wfq D (cond_flat c x y) uok.
Proof. intros. unfold cond_flat. wft. Qed.
#[local] Hint Resolve wfq_cond_flat : wf.
Lemma wfq_or_flat : forall D x y, ein D x -> ein D y -> wfq D (or_flat x y) ein.
Proof. intros. unfold or_flat. wft. Qed.
#[local] Hint Resolve wfq_or_flat : wf.
Lemma as_val_ein : forall D x y n e, as_val x y = Some (n, e) -> ein D x -> ein D y -> ein D e.
Proof. intros D x y n e E Hx Hy. destruct x; destruct y; try discriminate; injection E as <- <-; auto. Qed.
Lemma wfq_xor_bit : forall D x y, ein D x -> ein D y -> wfq D (xor_bit x y) ein.
Proof. intros D x y Hx Hy. unfold xor_bit. destruct (as_val x y) as [[n e]|] eqn:E; [pose proof (as_val_ein _ _ _ _ _ E Hx Hy)|]; wft. Qed.
Lemma wfq_and_bit : forall D x y, ein D x -> ein D y -> wfq D (and_bit x y) ein.
Proof. intros D x y Hx Hy. unfold and_bit. destruct (as_val x y) as [[n e]|] eqn:E; [pose proof (as_val_ein _ _ _ _ _ E Hx Hy)|]; wft. Qed.
Lemma wfq_or_bit : forall D x y, ein D x -> ein D y -> wfq D (or_bit x y) ein.
Proof. intros D x y Hx Hy. unfold or_bit. destruct (as_val x y) as [[n e]|] eqn:E; [pose proof (as_val_ein _ _ _ _ _ E Hx Hy)|]; wft. Qed.
Lemma wfq_not_bit : forall D x, ein D x -> wfq D (not_bit x) ein.
Proof. intros. unfold not_bit. wft. Qed.
Lemma wfq_ch_bit : forall D a b c, ein D a -> ein D b -> ein D c -> wfq D (ch_bit a b c) ein.
Proof. intros. unfold ch_bit. wft. Qed.
Lemma wfq_maj_bit : forall D a b c, ein D a -> ein D b -> ein D c -> wfq D (maj_bit a b c) ein.
Proof.
  intros D a b c Ha Hb Hc P. unfold maj_bit. apply wf_fbind. intros maj. apply wf_fbind. intros bc. eapply wf_bind.
  { eapply (wf_dir _ (bc :: P) [maj] D SShaMaj [a; b; c] (fun P' D' _ => P' = bc :: P /\ D' = maj :: D)); auto; [apply perm_swap|change (lin D [a; b; c]); auto with wf]. }
  intros P1 D1 t1 Hi [-> ->]. up Hi. cbn beta. eapply wf_bind.
  { eapply (wf_def _ P bc (maj :: D) (XMul b c) _ (fun P' D' _ => P' = P /\ D' = bc :: maj :: D)); auto; change (ein (maj :: D) (XMul b c)); auto with wf. }
  intros P1 D1 t2 Hi [-> ->]. up Hi. cbn beta. assert (vin (bc :: maj :: D) maj) by (right; left; auto).
  refine (wfq_bind _ _ (bc :: maj :: D) _ _ (fun _ _ => True) ein _ _ P); [apply wfq_cond'; auto 8 with wf|]. intros D1 t3 Hi _. up Hi. wft.
Qed.
#[local] Hint Resolve wfq_xor_bit wfq_and_bit wfq_or_bit wfq_not_bit wfq_ch_bit wfq_maj_bit : wf.
Lemma wfq_zipM : forall (f : fexp -> fexp -> M fexp), (forall D x y, ein D x -> ein D y -> wfq D (f x y) ein) ->
  forall a b D, lin D a -> lin D b -> wfq D (zipM f a b) lin.
Proof.
  intros f Hf. induction a as [|x a IH]; intros [|y b] D Ha Hb; cbn [zipM]; try (apply wfq_ret; apply lin_nil).
  pose proof (lin_hd _ _ _ Ha). pose proof (lin_hd _ _ _ Hb). apply lin_tl in Ha. apply lin_tl in Hb.
  eapply wfq_bind; [apply Hf; auto|]. intros D1 z Hi Hz. up Hi. eapply wfq_bind; [apply IH; auto|]. intros D2 zs Hi Hzs. up Hi. wft.
Qed.
Lemma wfq_zip3M : forall (f : fexp -> fexp -> fexp -> M fexp), (forall D x y z, ein D x -> ein D y -> ein D z -> wfq D (f x y z) ein) ->
  forall a b c D, lin D a -> lin D b -> lin D c -> wfq D (zip3M f a b c) lin.
Proof.
  intros f Hf. induction a as [|x a IH]; intros [|y b] [|z c] D Ha Hb Hc; cbn [zip3M]; try (apply wfq_ret; apply lin_nil).
  pose proof (lin_hd _ _ _ Ha). pose proof (lin_hd _ _ _ Hb). pose proof (lin_hd _ _ _ Hc). apply lin_tl in Ha. apply lin_tl in Hb. apply lin_tl in Hc.
  eapply wfq_bind; [apply Hf; auto|]. intros D1 u Hi Hu. up Hi. eapply wfq_bind; [apply IH; auto|]. intros D2 us Hi Hus. up Hi. wft.
Qed.
Lemma wfq_mapMe : forall A (f : A -> M fexp) l D, (forall D' x, incl D D' -> In x l -> wfq D' (f x) ein) -> wfq D (mapM f l) lin.
Proof.
  intros A f l D H. eapply wfq_weaken; [apply (wfq_mapM _ _ ein f l D ein_mono)|].
  - apply Forall_forall. intros x Hx D' Hi. apply H; auto.
  - cbn. intros D' r _ Hr. apply lin_Forall. auto.
Qed.
Lemma wfq_not_bits : forall D l, lin D l -> wfq D (mapM not_bit l) lin.
Proof. intros D l H. apply wfq_mapMe. intros D' x Hi Hx. apply wfq_not_bit. apply lin_Forall in H. rewrite Forall_forall in H. eapply ein_mono; eauto. Qed.
#[local] Hint Resolve wfq_zipM wfq_zip3M wfq_not_bits : wf.
Lemma wfq_euclid : forall D n l r, ein D l -> ein D r -> wfq D (euclid n l r) (fun D' q => ein D' (fst q) /\ ein D' (snd q)).
Proof. intros D n l r Hl Hr. unfold euclid. wft. Qed.
Lemma red_field_ein : forall D bits acc, ein D acc -> lin D bits -> ein D (red_field acc bits).
Proof.
  induction bits as [|b r IH]; intros acc Ha Hb; cbn [red_field]; auto. pose proof (lin_hd _ _ _ Hb). apply lin_tl in Hb.
  apply IH; auto with wf.
Qed.
Lemma wfq_finish : forall D a u, uok D u -> wfq D (finish_uint a u) uok.
Proof.
  intros D a u H. unfold finish_uint. destruct (ured a); try solve [wft]. wfb. apply wfq_ret. split; cbn [getf getbits]; auto.
  destruct (Nat.ltb (uw a) (fbits (umax a))); [apply red_field_ein; auto with wf|apply uok_f; auto].
Qed.
#[local] Hint Resolve wfq_euclid wfq_finish : wf.
Lemma wfq_bitsM : forall D u, uok D u -> wfq D (bitsM u) lin.
Proof. intros D u [_ H]. unfold bitsM. destruct (getbits u); wft. Qed.
#[local] Hint Resolve wfq_bitsM : wf.
Lemma wfq_pow_squares : forall r D p, ein D p -> wfq D (pow_squares p r) lin.
Proof.
  induction r; intros D p H; cbn [pow_squares]; [wft|]. wfb. eapply wfq_bind; [apply IHr; auto with wf|]. intros D1 vs Hi Hv. up Hi. wft.
Qed.
#[local] Hint Resolve wfq_pow_squares : wf.
Lemma wfq_pow_powers : forall D b r, ein D b -> wfq D (pow_powers b r) lin.
Proof. intros. unfold pow_powers. wft. Qed.
Lemma wfq_pow_fold : forall b D a ps, ein D a -> lin D ps -> wfq D (pow_fold a b ps) ein.
Proof.
  induction b as [|[|] b IH]; intros D a [|p ps] Ha Hp; cbn [pow_fold]; try (apply wfq_ret; auto with wf).
  - pose proof (lin_hd _ _ _ Hp). apply lin_tl in Hp. wfb. apply IH; auto with wf.
  - apply lin_tl in Hp. auto.
Qed.
#[local] Hint Resolve wfq_pow_powers wfq_pow_fold : wf.
Lemma wfq_select_fold : forall l D rc res, ein D rc -> ein D res -> Forall (fun q => ein D (fst q) /\ uok D (snd q)) l ->
  wfq D (select_fold rc res l) (fun D' q => ein D' (fst q) /\ ein D' (snd q)).
Proof.
  induction l as [|[c e] l IH]; intros D rc res Hc Hr Hl; cbn [select_fold]; [apply wfq_ret; auto|].
  inversion Hl as [|? ? [H1 H2] H3]; subst. cbn [fst snd] in *. pose proof (uok_f _ _ H2) as Hf.
  eapply wfq_bind; [apply wfq_newdef; auto with wf|]. intros D1 v Hi Hv.
  assert (H3' : Forall (fun q => ein D1 (fst q) /\ uok D1 (snd q)) l).
  { eapply Forall_impl; [|exact H3]. cbn. intros q [A B]. split; [eapply ein_mono|eapply uok_mono]; eauto. }
  up Hi. apply IH; auto with wf.
Qed.
Lemma wfq_isU : forall D k m, wfq D m uok -> wfq D (isU k m) uok.
Proof. intros D k m H. unfold isU. destruct k; auto. eapply wfq_bind; [exact H|]. intros D1 r Hi Hr. apply wfq_finish. auto. Qed.

Theorem wfq_flat : forall e D, wfq D (flat e) uok.
Proof.
  assert (A : forall n e, (zsize e < n)%nat -> forall D, wfq D (flat e) uok).
  { induction n as [|n IH]; intros e Hs D; [lia|]. destruct e; cbn [zsize] in Hs.
    - cbn [flat]. wft.
    - cbn [flat]. wft.
    - cbn [flat]. wft.
    - cbn [flat]. destruct k; try solve [wft]. wfb. eapply wfq_bind; [apply wfq_cget|]. intros D2 hit Hi Hh. up Hi. cbn beta in Hh.
      destruct hit as [[bits ex]|]; [|wft]. change (lin D2 bits) in Hh. wfb. apply wfq_finish. split; cbn [getf getbits]; auto with wf. apply ein_id; auto.
    - assert (H1 : forall D, wfq D (flat e1) uok) by (apply IH; lia). assert (H2 : forall D, wfq D (flat e2) uok) by (apply IH; lia). cbn [flat]. wft.
    - assert (H1 : forall D, wfq D (flat e) uok) by (apply IH; lia). cbn [flat]. wft.
    - assert (H1 : forall D, wfq D (flat e1) uok) by (apply IH; lia). assert (H2 : forall D, wfq D (flat e2) uok) by (apply IH; lia). destruct op; cbn [flat]; wft.
    - assert (H1 : forall D, wfq D (flat e1) uok) by (apply IH; lia). assert (H2 : forall D, wfq D (flat e2) uok) by (apply IH; lia). cbn [flat]. wfb. wfb.
      destruct op; cbv zeta; wft.
    - assert (H1 : forall D, wfq D (flat e) uok) by (apply IH; lia). cbn [flat]. wft.
    - assert (H1 : forall D, wfq D (flat e1) uok) by (apply IH; lia). assert (H2 : forall D, wfq D (flat e2) uok) by (apply IH; lia).
      assert (Hdiv : forall (p : fexp * fexp -> fexp), (forall q D, ein D (fst q) -> ein D (snd q) -> ein D (p q)) ->
        wfq D (res <- (x <- flat e1 ;; y <- flat e2 ;; qr <- euclid (uw a) (getf x) (getf y) ;; ret (UF (p qr) None)) ;; finish_uint a res) uok).
      { intros p Hp. eapply wfq_bind with (R := uok); [|intros; apply wfq_finish; auto]. wfb. wfb. wfb. destruct Hr1 as [Hq1 Hq2]. apply wfq_ret. apply uok_UF. apply Hp; auto. }
      destruct op; lazymatch goal with |- context [ZUBin _ UXor _ _] => idtac | |- context [ZUBin _ UDiv _ _] => idtac | |- context [ZUBin _ URem _ _] => idtac
        | _ => (cbn [flat]; eapply wfq_bind with (R := uok); [solve [wft]|intros; apply wfq_finish; auto]) end.
      + exact (Hdiv fst (fun _ _ h _ => h)).
      + exact (Hdiv snd (fun _ _ _ h => h)).
      + rewrite flat_xor. eapply wfq_bind with (R := uok); [|intros; apply wfq_finish; auto]. destruct (xor_view e1 e2) as [[ch [[ea eb] ec]]|] eqn:Ev; [|wft].
        pose proof (xor_view_size _ _ _ _ _ _ Ev). assert (forall D, wfq D (flat ea) uok) by (apply IH; lia). assert (forall D, wfq D (flat eb) uok) by (apply IH; lia).
        assert (forall D, wfq D (flat ec) uok) by (apply IH; lia). destruct ch; wft.
    - assert (H1 : forall D, wfq D (flat e) uok) by (apply IH; lia). cbn [flat]. wft.
    - assert (H1 : forall D, wfq D (flat e) uok) by (apply IH; lia). cbn [flat]. wft.
    - assert (H1 : forall D, wfq D (flat e) uok) by (apply IH; lia). cbn [flat]. wft.
    - assert (H1 : forall D, wfq D (flat e1) uok) by (apply IH; lia). assert (H2 : forall D, wfq D (flat e2) uok) by (apply IH; lia). assert (H3 : forall D, wfq D (flat e3) uok) by (apply IH; lia).
      cbn [flat]. apply wfq_isU. wft.
    - assert (H1 : forall D, wfq D (flat e) uok) by (apply IH; lia). cbn [flat]. apply wfq_isU.
      eapply wfq_bind with (R := fun D' l => Forall (fun q => ein D' (fst q) /\ uok D' (snd q)) l).
      2:{ intros D1 l Hi Hl. eapply wfq_bind; [apply wfq_select_fold; auto with wf|]. intros D2 rr Hi2 [Hr1 Hr2]. wfb. wft. }
      assert (Hs' : ((fix go (l : list zexp) : nat := match l with [] => 0 | e :: r => zsize e + go r end) es < n)%nat) by lia.
      clear Hs. match goal with |- wfq _ (?f 0%nat ?l) _ => enough (Hgo : forall D i, wfq D (f i l) (fun D' l => Forall (fun q => ein D' (fst q) /\ uok D' (snd q)) l)) by apply Hgo end.
      clear D. induction es as [|e0 r IHr]; intros D i; [apply wfq_ret; constructor|].
      assert (H2 : forall D, wfq D (flat e0) uok) by (apply IH; lia).
      eapply wfq_bind; [apply wfq_assert'|]. intros D1 t0 _ _. eapply wfq_bind; [apply wfq_finish; auto with wf|]. intros D2 iv Hi Hiv. up Hi.
      eapply wfq_bind; [apply H1|]. intros D3 x Hi Hx. up Hi. eapply wfq_bind; [apply wfq_eq_check; auto with wf|]. intros D4 c Hi Hc. up Hi.
      eapply wfq_bind; [apply H2|]. intros D5 y Hi Hy. up Hi. eapply wfq_bind; [apply IHr; lia|]. intros D6 rest Hi Hrest. up Hi.
      apply wfq_ret. constructor; auto. }
  intros e. apply (A (S (zsize e))). lia.
Qed.
#[local] Hint Resolve wfq_flat : wf.
Lemma wfq_naive : forall D e err, wfq D (naive_assert e err) (fun _ _ => True).
Proof. intros. unfold naive_assert. wfb. destruct (is_linear (getf a)); apply wfq_cond'; auto with wf. Qed.
Lemma wfq_not_zero : forall D e, ein D e -> wfq D (not_zero_assert e) (fun _ _ => True).
Proof. intros. unfold not_zero_assert. wft. Qed.
Lemma ein_mul_inv : forall D a b, ein D (XMul a b) -> ein D a /\ ein D b.
Proof. intros D a b H. split; intros x Hx; apply H; apply in_or_app; auto. Qed.
Lemma wfq_eq_assert : forall D a b err, ein D a -> ein D b -> wfq D (eq_assert a b err) (fun _ _ => True).
Proof.
  intros D a b err Ha Hb. unfold eq_assert.
  destruct a; destruct b; try (pose proof (ein_mul_inv _ _ _ Ha) as [? ?]); try (pose proof (ein_mul_inv _ _ _ Hb) as [? ?]); wfb; wfb; try wfb; apply wfq_cond'; auto with wf.
Qed.
Lemma wfq_enforce_one : forall D e err, ein D e -> wfq D (enforce_one e err) (fun _ _ => True).
Proof. intros. unfold enforce_one. apply wfq_cond'; auto with wf. Qed.
#[local] Hint Resolve wfq_naive wfq_not_zero wfq_eq_assert wfq_enforce_one : wf.
Lemma wfq_fca : forall D le l r err, ein D l -> ein D r -> wfq D (field_cmp_assert le l r err) (fun _ _ => True).
Proof. intros D [|] l r err Hl Hr; unfold field_cmp_assert; destruct r; destruct l; wft. Qed.
Lemma wfq_uca : forall D le n l r err, ein D l -> ein D r -> wfq D (uint_cmp_assert le n l r err) (fun _ _ => True).
Proof. intros D [|] n l r err Hl Hr; unfold uint_cmp_assert; destruct r; destruct l; cbv zeta; wft. Qed.
#[local] Hint Resolve wfq_fca wfq_uca : wf.
Lemma wfq_assertion : forall e D err, wfq D (flat_assert e err) (fun _ _ => True).
Proof.
  induction e; intros D err; try (apply wfq_naive).
  - destruct op; cbn [flat_assert]; wft.
  - destruct op; cbn [flat_assert]; try solve [wft]; try (apply wfq_naive); try (eapply wfq_bind; [apply IHe2|]; intros; apply IHe1).
  - destruct e; try (apply wfq_naive). destruct op; try (apply wfq_naive); cbn [flat_assert]; repeat first [apply wfq_naive|wfs].
Qed.
#[local] Hint Resolve wfq_assertion : wf.
Lemma incl_rev' : forall (vs : list var) D, incl vs D -> incl (rev vs) D.
Proof. intros vs D H x Hx. apply H. apply in_rev. auto. Qed.
Lemma wfq_unpack : forall D n x, ein D x -> wfq D (unpack n x) lin.
Proof.
  intros D n x H. unfold unpack. wfb. eapply wfq_dirn; [auto with wf|reflexivity|]. intros D1 vs Hi Hv Hl. up Hi.
  eapply wfq_bind; [apply wfq_conds'|].
  - apply Forall_forall. intros s Hs. apply in_map_iff in Hs as [v [<- Hin]]. assert (vin D1 v) by (apply Hv; apply in_rev; auto). cbn. split; auto with wf.
  - intros D2 t Hi _. up Hi. wfb. apply wfq_mapMe. intros D' v Hi Hin. assert (vin D' v) by (apply Hi, Hv; auto). wft.
Qed.
Lemma wfq_bool_const : forall D e, wfq D (bool_const e) (fun _ _ => True).
Proof. intros. unfold bool_const. wft. Qed.
Lemma uoks_f : forall D ps, Forall (uok D) ps -> lin D (map getf ps).
Proof. intros D ps H. apply lin_Forall. induction H; cbn; constructor; auto with wf. Qed.
Lemma lin_uoks : forall D bs, lin D bs -> Forall (uok D) (map (fun b => UF b None) bs).
Proof. intros D bs H. apply lin_Forall in H. induction H; cbn; constructor; auto with wf. Qed.
Lemma wfq_embed : forall D em ps, Forall (uok D) ps -> wfq D (embed_call em ps) (fun D' r => Forall (uok D') r).
Proof.
  intros D em ps H. destruct em; cbn [embed_call].
  - destruct ps as [|p [|q ps]]; try apply wfq_fail. apply wfq_ret. auto.
  - destruct ps as [|p [|q ps]]; try apply wfq_fail. inversion H; subst. wfb. wfb. apply wfq_ret. apply lin_uoks. auto.
  - eapply wfq_bind; [apply wfq_assert'|]. intros D1 t Hi _.
    apply wfq_ret. constructor; auto. apply uok_UB. eapply lin_mono; [exact Hi|]. apply uoks_f. auto.
  - pose proof (uoks_f _ _ H) as Hl. eapply wfq_bind; [apply (wfq_mapM _ _ vin define _ D vin_mono)|].
    + apply Forall_forall. intros x Hx D' Hi. apply wfq_define. apply in_map_iff in Hx as [u [<- Hu]]. eapply ein_mono; [exact Hi|]. apply uok_f.
      rewrite Forall_forall in H. apply H. rewrite <- (firstn_skipn n ps). apply in_or_app; auto.
    + intros D1 vs Hi Hv. apply Forall_vin in Hv. eapply wfq_bind; [apply (wfq_mapM _ _ (fun _ _ => True)); auto; apply Forall_forall; intros; apply wfq_bool_const|].
      intros D2 cs Hi2 _. up Hi2. wfb. wfb. apply wfq_ret. constructor; auto with wf.
  - destruct ps as [|p [|q ps]]; try apply wfq_fail. inversion H; subst. eapply wfq_bind; [apply wfq_unpack; auto with wf|]. intros D1 bs Hi Hb.
    apply wfq_ret. apply lin_uoks. auto.
Qed.
Lemma wfq_bind_name : forall D x e, ein D e -> wfq D (bind_name x e) vin.
Proof.
  intros D x e H.
  assert (A : wfq D (v <- fresh ;; set_lay x v ;;; emit (XDef v e None) ;;; ret v) vin).
  { assert (B : wfq D (v <- fresh ;; emit (XDef v e None) ;;; set_lay x v ;;; ret v) vin).
    { eapply wfq_def1; [auto|]. intros D1 v Hi Hv. eapply wfq_bind; [apply wfq_set_lay with (Q := fun D' _ => D' = D1); auto|]. intros D2 t _ ->. apply wfq_ret; auto. }
    intros P s a s' em W E. apply (B P s a s' em W). rewrite <- E. reflexivity. }
  destruct e; cbn [bind_name]; auto. eapply wfq_bind; [apply wfq_set_lay with (Q := fun D' _ => D' = D); auto; apply H; left; auto|].
  intros D2 t _ ->. apply wfq_ret. apply H. left. auto.
Qed.

(** no Return inside *)
Fixpoint noret (s : zstmt) : Prop :=
  match s with
  | ZReturn _ => False
  | ZIf _ a b => (fix go (l : list zstmt) : Prop := match l with [] => True | s :: r => noret s /\ go r end) a /\
                 (fix go (l : list zstmt) : Prop := match l with [] => True | s :: r => noret s /\ go r end) b
  | _ => True
  end.
Lemma wfq_flats : forall es D, wfq D (mapM flat es) (fun D' us => Forall (uok D') us).
Proof. intros es D. apply wfq_mapM; [apply uok_mono|]. apply Forall_forall. intros. apply wfq_flat. Qed.
Lemma wfq_stmt : forall s, noret s -> forall D, wfq D (flat_stmt s) (fun _ _ => True).
Proof.
  apply (zstmt_ind' (fun s => noret s -> forall D, wfq D (flat_stmt s) (fun _ _ => True))).
  - intros es [].
  - intros x e _ D. cbn [flat_stmt]. wfb. eapply wfq_bind; [apply wfq_bind_name; auto with wf|]. intros D1 v Hi Hv. up Hi.
    destruct Hr as [_ Hb]. destruct (getbits a) as [bits|]; [apply wfq_cput'; auto|wft].
  - intros c a b Ha Hb [Na Nb] D. cbn [flat_stmt].
    assert (G : forall l, Forall (fun s => noret s -> forall D, wfq D (flat_stmt s) (fun _ _ => True)) l ->
      (fix go (l : list zstmt) : Prop := match l with [] => True | s :: r => noret s /\ go r end) l -> forall D,
      wfq D ((fix go (l : list zstmt) : M unit := match l with [] => ret tt | s :: r => flat_stmt s ;;; go r end) l) (fun _ _ => True)).
    { induction 1 as [|s r Hs Hr IH]; intros N D0; [wft|]. destruct N as [N1 N2]. eapply wfq_bind; [apply Hs; auto|]. intros. apply IH; auto. }
    wfb. wfb. eapply wfq_bind; [apply G; auto|]. intros. apply G; auto.
  - intros e err _ D. apply wfq_assertion.
  - intros xs em es _ D. cbn [flat_stmt]. eapply wfq_bind; [apply (wfq_mapM _ _ uok); [apply uok_mono|]|].
    + apply Forall_forall. intros e _ D' _. wfb. apply wfq_flat.
    + intros D1 ps _ Hps. eapply wfq_bind; [apply wfq_embed; auto|]. intros D2 rs _ Hrs. eapply wfq_bind; [apply wfq_assert'|]. intros D3 t Hi _.
      assert (Hrs3 : Forall (uok D3) rs) by (eapply Forall_impl; [|exact Hrs]; intros; eapply uok_mono; eauto).
      eapply wfq_bind with (R := fun D' vs => Forall (vin D') vs).
      * clear - Hrs3. revert D3 rs Hrs3. induction xs as [|x xs IH]; intros D [|u rs] H; cbn [zipM]; try (apply wfq_ret; constructor).
        inversion H as [|? ? H1 H2]; subst. eapply wfq_bind; [apply wfq_bind_name; auto with wf|]. intros D1 v Hi Hv.
        eapply wfq_bind; [apply IH; eapply Forall_impl; [|exact H2]; intros; eapply uok_mono; eauto|]. intros D2 vs Hi2 Hvs. up Hi2. apply wfq_ret. constructor; auto.
      * intros D4 vs _ Hvs. destruct em; try solve [wft]. eapply wfq_bind; [apply wfq_flats|]. intros D5 us _ Hus. destruct vs; [apply wfq_fail|]. apply wfq_cput'. apply uoks_f. auto.
  - intros f es _ D. cbn [flat_stmt]. eapply wfq_bind; [apply wfq_flats|]. intros D1 us _ Hus. apply wfq_conds'. constructor; auto. apply uoks_f. auto.
Qed.
End CgWf2.
