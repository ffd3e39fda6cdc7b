(** C33: the proof-system backends get the constraint system of the program, one wire per variable.
    C34: the public wires carry the list given to the verifier. *)
From Coq Require Import ZArith List Bool Lia Ring Field.
From Verif Require Import PField SMap Concrete IR IRSpec Wf IRProofs Interp InterpProofs Optimizer OptimizerProofs OptPipeline OptExtra PropIRLemmas Bits Flat FlatProofs Zir Codegen CgBase CgGadgets CgExpr CgStmt CgEmit CgProg CgWf CgEnd Backend OutOrder.
Import ListNotations.
Open Scope Z_scope.

Section Defs.
Context {PF : PrimeField}.
(** ** Specification *)
(** the program contains no block *)
Definition block_free (p : prog) : Prop := exists ss, pstmts p = map Single ss.
(** the variables of the constraints *)
Definition constraint_vars (ss : list stmt) : list var :=
  flat_map (fun s => match s with Constraint q l _ => q_vars q ++ lc_vars l | _ => [] end) ss.
(** the witness has a value for every argument and every variable of a constraint *)
Definition covers (w : smap F) (p : prog) : Prop :=
  forall v, In v (map pid (pargs p) ++ constraint_vars (flat_stmts (pstmts p))) -> v <> vone -> exists x, sget v w = Some x.
(** /repo/zokrates_ast/src/ir/witness.rs l.12-23: the witness has n outputs; the values of ~out_0 .. ~out_(n-1); [None]: unwrap panics *)
Definition return_values (w : smap F) : option (list F) := opt_list (map (fun i => sget (vpub i) w) (seq 0 (length (filter (fun kv => is_output (fst kv)) w)))).
(** /repo/zokrates_ast/src/ir/mod.rs l.279-292 *)
Definition public_inputs_values (p : prog) (w : smap F) : option (list F) :=
  match opt_list (map (fun a => sget (pid a) w) (filter (fun a => negb (pprivate a)) (pargs p))), return_values w with
  | Some a, Some b => Some (a ++ b)
  | _, _ => None
  end.

(** ** Totality *)
Lemma alloc_none : forall pub v s, sywit s = None -> exists wi s', alloc pub v s = Some (wi, s') /\ sywit s' = None.
Proof. intros pub v s H. unfold alloc. rewrite H. destruct pub; eauto. Qed.
Lemma combination_none : forall l s, sywit s = None -> exists t s', combination l s = Some (t, s') /\ sywit s' = None.
Proof.
  induction l as [|[v c] l IH]; intros s H; cbn [combination]; [eauto|]. destruct (sget v (sysym s)) as [wi|].
  - destruct (IH s H) as [t [s' [-> E]]]. eauto.
  - destruct (alloc_none (is_output v) v s H) as [wi [s1 [-> E1]]]. destruct (IH (set_sym v wi s1) E1) as [t [s' [-> E]]]. eauto.
Qed.
Lemma statements_none : forall ss s, sywit s = None -> exists s', statements ss s = Some s'.
Proof.
  induction ss as [|[[q l e|outs sv ins|fm es]|bs] ss IH]; intros s H; cbn [statements]; eauto.
  destruct (combination_none (qleft q) s H) as [a [s1 [-> H1]]]. destruct (combination_none (qright q) s1 H1) as [b [s2 [-> H2]]]. destruct (combination_none l s2 H2) as [c [s3 [-> H3]]]. apply IH. exact H3.
Qed.
Lemma arguments_none : forall ps s, sywit s = None -> exists s', arguments ps s = Some s' /\ sywit s' = None.
Proof.
  induction ps as [|p ps IH]; intros s H; cbn [arguments]; [eauto|]. destruct (alloc_none (negb (pprivate p)) (pid p) s H) as [wi [s1 [-> E1]]]. apply IH. exact E1.
Qed.
Lemma alloc_some : forall w pub v s, SInv (Some w) s -> ~ In v (live s) -> (exists x, sget v w = Some x) -> exists wi s', alloc pub v s = Some (wi, s').
Proof.
  intros w pub v s I N [x Hx]. destruct I as [_ _ [r [Er [_ [R _]]]]]. unfold alloc. rewrite Er. rewrite R by (intros X; apply N; right; exact X). rewrite Hx. destruct pub; eauto.
Qed.
Lemma combination_some : forall w l s, SInv (Some w) s -> (forall v, In v (lc_vars l) -> v <> vone -> exists x, sget v w = Some x) -> exists t s', combination l s = Some (t, s') /\ SInv (Some w) s'.
Proof.
  induction l as [|[v c] l IH]; intros s I H; cbn [combination]; [eauto|]. destruct (sget v (sysym s)) as [wi|] eqn:G.
  - destruct (IH s I) as [t [s' [-> E]]]; [intros u Hu; apply H; right; exact Hu|]. eauto.
  - assert (N : ~ In v (live s)) by (intros X; apply live_wire in X as [wi' X]; apply (si_sym _ _ I) in X; congruence).
    destruct (alloc_some w (is_output v) v s I N) as [wi [s1 E1]]; [apply H; [left; reflexivity|intros ->; apply N; left; reflexivity]|]. rewrite E1.
    destruct (alloc_ok _ _ _ _ _ _ I N E1) as [J _]. destruct (IH _ J) as [t [s' [-> E]]]; [intros u Hu; apply H; right; exact Hu|]. eauto.
Qed.
Lemma statements_some : forall w ss s, SInv (Some w) s -> (forall v, In v (constraint_vars ss) -> v <> vone -> exists x, sget v w = Some x) -> exists s', statements (map Single ss) s = Some s'.
Proof.
  induction ss as [|[q l e|outs sv ins|fm es] ss IH]; intros s I H; cbn [statements map]; eauto.
  cbn [constraint_vars flat_map] in H. assert (H' : forall v, In v (lc_vars (qleft q)) \/ In v (lc_vars (qright q)) \/ In v (lc_vars l) -> v <> vone -> exists x, sget v w = Some x) by (intros v Hv; apply H; unfold q_vars; rewrite !in_app_iff; tauto).
  destruct (combination_some w (qleft q) s I) as [a [s1 [-> H1]]]; [intros; apply H'; auto|]. destruct (combination_some w (qright q) s1 H1) as [b [s2 [-> H2]]]; [intros; apply H'; auto|].
  destruct (combination_some w l s2 H2) as [c [s3 [-> H3]]]; [intros; apply H'; auto|]. apply IH; [|intros v Hv; apply H, in_or_app; right; exact Hv]. destruct H3 as [A B C]. constructor; [exact A|exact B|exact C].
Qed.
Lemma arguments_some : forall w ps s, SInv (Some w) s -> NoDup (live s ++ map pid ps) -> (forall v, In v (map pid ps) -> exists x, sget v w = Some x) -> exists s', arguments ps s = Some s'.
Proof.
  induction ps as [|p ps IH]; intros s I N H; cbn [arguments]; [eauto|]. cbn [map] in N.
  assert (Np : ~ In (pid p) (live s)) by (intros X; apply NoDup_remove_2 in N; apply N, in_or_app; left; exact X).
  destruct (alloc_some w (negb (pprivate p)) (pid p) s I Np) as [wi [s1 A]]; [apply H; left; reflexivity|]. rewrite A. destruct (alloc_ok _ _ _ _ _ _ I Np A) as [J [_ [_ [S1 S2]]]].
  apply IH; [exact J| |intros v Hv; apply H; right; exact Hv].
  assert (L : forall x, In x (live s ++ pid p :: map pid ps) -> In x (live (set_sym (pid p) wi s1) ++ map pid ps)).
  { intros x. unfold live, set_sym. cbn [syin syaux]. rewrite S1, S2. destruct (negb (pprivate p)); cbn [app In]; rewrite ?app_nil_r, !in_app_iff; cbn [In]; rewrite ?in_app_iff; cbn [In]; tauto. }
  eapply NoDup_incl_NoDup; [exact N| |exact L]. unfold live, set_sym. cbn [syin syaux]. rewrite S1, S2. destruct (negb (pprivate p)); cbn [app length]; rewrite !app_length; cbn [length]; rewrite ?app_length; cbn [length]; lia.
Qed.

(** ** The same circuit with and without a witness *)
Definition erased (s k : synth) : Prop := sysym k = sysym s /\ syin k = syin s /\ syaux k = syaux s /\ sycons k = sycons s /\ sywit k = None.
Lemma alloc_erased : forall pub v s k wi s', erased s k -> alloc pub v s = Some (wi, s') -> exists k', alloc pub v k = Some (wi, k') /\ erased s' k'.
Proof.
  intros pub v s k wi s' [E1 [E2 [E3 [E4 E5]]]] H. unfold alloc in *. rewrite E5, E1, E2, E3, E4. destruct (sywit s) as [w|].
  - destruct (sget v w); [|discriminate H]. destruct pub; injection H as <- <-; eexists; (split; [reflexivity|]); repeat split.
  - destruct pub; injection H as <- <-; eexists; (split; [reflexivity|]); repeat split.
Qed.
Lemma set_erased : forall v wi s k, erased s k -> erased (set_sym v wi s) (set_sym v wi k).
Proof. intros v wi s k [E1 [E2 [E3 [E4 E5]]]]. unfold erased, set_sym. cbn. rewrite E1. auto. Qed.
Lemma combination_erased : forall l s k t s', erased s k -> combination l s = Some (t, s') -> exists k', combination l k = Some (t, k') /\ erased s' k'.
Proof.
  induction l as [|[v c] l IH]; intros s k t s' E H; cbn [combination] in *; [injection H as <- <-; eauto|]. pose proof E as [E1 _]. rewrite E1. destruct (sget v (sysym s)) as [wi|].
  - destruct (combination l s) as [[t1 s1]|] eqn:C; [|discriminate H]. injection H as <- <-. destruct (IH _ _ _ _ E C) as [k' [-> X]]. eauto.
  - destruct (alloc (is_output v) v s) as [[wi s1]|] eqn:A; [|discriminate H]. destruct (alloc_erased _ _ _ _ _ _ E A) as [k1 [-> X1]].
    destruct (combination l (set_sym v wi s1)) as [[t1 s2]|] eqn:C; [|discriminate H]. injection H as <- <-. destruct (IH _ _ _ _ (set_erased v wi _ _ X1) C) as [k' [-> X]]. eauto.
Qed.
Lemma statements_erased : forall ss s k s', erased s k -> statements ss s = Some s' -> exists k', statements ss k = Some k' /\ erased s' k'.
Proof.
  induction ss as [|[[q l e|outs sv ins|fm es]|bs] ss IH]; intros s k s' E H; cbn [statements] in *; eauto; [injection H as <-; eauto|].
  destruct (combination (qleft q) s) as [[a s1]|] eqn:C1; [|discriminate H]. destruct (combination (qright q) s1) as [[b s2]|] eqn:C2; [|discriminate H]. destruct (combination l s2) as [[c s3]|] eqn:C3; [|discriminate H].
  destruct (combination_erased _ _ _ _ _ E C1) as [k1 [-> X1]]. destruct (combination_erased _ _ _ _ _ X1 C2) as [k2 [-> X2]]. destruct (combination_erased _ _ _ _ _ X2 C3) as [k3 [-> X3]].
  eapply IH; [|exact H]. destruct X3 as [Y1 [Y2 [Y3 [Y4 Y5]]]]. unfold erased. cbn. rewrite Y4. auto.
Qed.
Lemma arguments_erased : forall ps s k s', erased s k -> arguments ps s = Some s' -> exists k', arguments ps k = Some k' /\ erased s' k'.
Proof.
  induction ps as [|p ps IH]; intros s k s' E H; cbn [arguments] in *; [injection H as <-; eauto|]. destruct (alloc (negb (pprivate p)) (pid p) s) as [[wi s1]|] eqn:A; [|discriminate H].
  destruct (alloc_erased _ _ _ _ _ _ E A) as [k1 [-> X1]]. eapply IH; [|exact H]. apply set_erased. exact X1.
Qed.

(** ** Everything about a synthesized system *)
Lemma cvars_singles : forall ss v, In v (flat_map cvars (map Single ss)) <-> In v (constraint_vars ss).
Proof.
  induction ss as [|s ss IH]; intros v; cbn; [tauto|]. rewrite !in_app_iff, IH. destruct s as [q l e| |]; cbn; try tauto. unfold q_vars. rewrite !in_app_iff. tauto.
Qed.
Lemma synthesize_ok : forall p ss w s, pstmts p = map Single ss -> NoDup (vone :: map pid (pargs p)) -> (match w with Some m => ssorted m | None => True end) -> synthesize p w = Some s ->
  SInv w s /\ syin s = map pid (filter (fun a => negb (pprivate a)) (pargs p)) ++ new_outputs (vone :: map pid (pargs p)) (flat_map cvars (map Single ss)) /\
  (forall v, In v (live s) <-> v = vone \/ In v (map pid (pargs p)) \/ In v (constraint_vars ss)) /\
  (exists kss, Forall2 (crel s) (map Single ss) kss /\ sycons s = concat kss).
Proof.
  intros p ss w s Ep N Hw H. unfold synthesize in H. rewrite Ep in H. destruct (arguments (pargs p) _) as [s1|] eqn:A; [|discriminate H].
  destruct (arguments_ok _ _ _ _ (init_inv w Hw) ltac:(cbn [live syin syaux app]; exact N) A) as [I1 [A1 [A2 A3]]]. cbn [syin syaux sycons app] in A1, A2, A3.
  destruct (statements_ok _ _ _ _ I1 H) as [I2 [[a Ga] [[b Gb] [[kss [K1 K2]] [S1 S2]]]]]. rewrite A3 in K2. cbn [app] in K2.
  assert (L1 : forall v, In v (live s1) <-> In v (vone :: map pid (pargs p))).
  { intros v. unfold live. rewrite A1, A2. cbn [In]. rewrite in_app_iff, !in_map_iff. split.
    - intros [X|[[q [X Y]]|[q [X Y]]]]; auto; right; exists q; apply filter_In in Y; tauto.
    - intros [X|[q [X Y]]]; auto. right. destruct (pprivate q) eqn:P; [right|left]; exists q; rewrite filter_In, P; auto. }
  split; [exact I2|]. split; [rewrite S1, A1; f_equal; apply new_outputs_ext; intros v _; apply L1|]. split; [|exists kss; auto].
  intros v. split.
  - intros X. apply S2 in X. rewrite in_app_iff, L1, cvars_singles in X. cbn [In] in X. intuition.
  - intros X. assert (X' : In v (live s1) \/ In v (constraint_vars ss)) by (rewrite L1; cbn [In]; intuition). clear X. destruct X' as [X|X].
    + unfold live in *. destruct X as [X|X]; [left; exact X|right]. rewrite Ga, Gb, !in_app_iff in *. tauto.
    + apply live_wire. unfold constraint_vars in X. apply in_flat_map in X as [st [X Y]]. destruct st as [q l e| |]; [|destruct Y|destruct Y]. clear - K1 X Y.
      assert (G : forall l t, Forall2 (lrel s) l t -> In v (lc_vars l) -> exists wi, wire_of s v wi). { intros l0 t R. induction R as [|[u c] [wi c'] l0 t [R1 R2] R IH]; [intros []|]. intros [<-|Z]; [exists wi; exact R2|apply IH; exact Z]. }
      remember (map Single ss) as bs eqn:Eb. revert ss Eb X. induction K1 as [|b k bs kss K1 K2 IH]; intros ss Eb X; [destruct ss; [destruct X|discriminate Eb]|].
      destruct ss as [|s0 ss]; [discriminate Eb|]. injection Eb as -> ->. destruct X as [->|X]; [|eapply IH; eauto]. cbn [crel] in K1. destruct K1 as [k' [_ [R1 [R2 R3]]]]. unfold q_vars in Y. rewrite !in_app_iff in Y. destruct Y as [[Y|Y]|Y]; [exact (G _ _ R1 Y)|exact (G _ _ R2 Y)|exact (G _ _ R3 Y)].
Qed.
Lemma crel_sat : forall s (a : wire -> F) (w : env) bs kss, (forall v wi, wire_of s v wi -> a wi = w v) -> Forall2 (crel s) bs kss ->
  forall ss, bs = map Single ss -> (wsat a (concat kss) <-> sat w ss).
Proof.
  intros s a w bs kss H K. induction K as [|b k bs kss K1 K2 IH]; intros ss E; (destruct ss as [|s0 ss]; [try discriminate E|try discriminate E]); [split; constructor|]. injection E as -> ->.
  cbn [concat]. unfold wsat, sat. rewrite Forall_app, Forall_cons_iff. specialize (IH ss eq_refl). unfold wsat, sat in IH. rewrite IH. apply and_iff_compat_r.
  destruct s0 as [q l e| |]; cbn [crel sat_stmt] in *; try (subst k; split; [auto|constructor]). destruct K1 as [k' [-> [R1 [R2 R3]]]].
  pose proof (weval_ok s a w _ _ H R1) as W1. pose proof (weval_ok s a w _ _ H R2) as W2. pose proof (weval_ok s a w _ _ H R3) as W3. split.
  - intros X. inversion X; subst. unfold eval_quad. congruence.
  - intros X. constructor; [|constructor]. unfold eval_quad in X. congruence.
Qed.
End Defs.

(** ** C33 *)
(** Key generation never fails; proving does not fail with a witness for all variables, and builds the same circuit. *)
Theorem C33_setup_total : forall (PF : PrimeField) p, exists k, synthesize p None = Some k.
Proof. intros PF p. unfold synthesize. destruct (arguments_none (pargs p) (mkSy [(vone, WOne)] [] [] [] [] None []) eq_refl) as [s [-> H]]. apply statements_none. exact H. Qed.
Theorem C33_proving_total : forall (PF : PrimeField) p (w : smap F), block_free p -> NoDup (vone :: map pid (pargs p)) -> ssorted w -> covers w p ->
  exists s, synthesize p (Some w) = Some s.
Proof.
  intros PF p w [ss Ep] N Hw C. unfold covers in C. unfold synthesize. rewrite Ep in *. rewrite flat_singles in C. pose proof (init_inv (Some w) Hw) as I.
  assert (Hv : forall v, In v (map pid (pargs p)) -> exists x, sget v w = Some x) by (intros v X; apply C; [apply in_or_app; left; exact X|intros ->; apply NoDup_cons_iff in N; tauto]).
  destruct (arguments_some w (pargs p) _ I ltac:(cbn [live syin syaux app]; exact N) Hv) as [s1 A]. rewrite A. destruct (arguments_ok _ _ _ _ I ltac:(cbn [live syin syaux app]; exact N) A) as [J _].
  apply (statements_some w); [exact J|]. intros v X. apply C, in_or_app. right. exact X.
Qed.
Theorem C33_same_circuit : forall (PF : PrimeField) p (w : smap F) s, synthesize p (Some w) = Some s ->
  exists k, synthesize p None = Some k /\ sycons k = sycons s /\ syin k = syin s /\ syaux k = syaux s.
Proof.
  intros PF p w s H. unfold synthesize in *. destruct (arguments (pargs p) _) as [s1|] eqn:A; [|discriminate H].
  assert (E0 : erased (mkSy [(vone, WOne)] [] [] [] [] (Some w) []) (mkSy [(vone, WOne)] [] [] [] [] None [])) by (repeat split).
  destruct (arguments_erased _ _ _ _ E0 A) as [k1 [-> X]]. destruct (statements_erased _ _ _ _ X H) as [k [-> [_ [Y2 [Y3 [Y4 _]]]]]]. exists k. auto.
Qed.
(** One wire per variable: the wires are the constant, the public and the private ones; every wire stands for one variable, no variable has
    two wires, and the variables with a wire are exactly the arguments and the variables of the constraints. *)
Theorem C33_one_wire_per_variable : forall (PF : PrimeField) p (w : option (smap F)) s, block_free p -> NoDup (vone :: map pid (pargs p)) -> (match w with Some m => ssorted m | None => True end) ->
  synthesize p w = Some s ->
  NoDup (vone :: syin s ++ syaux s) /\
  forall v, In v (vone :: syin s ++ syaux s) <-> v = vone \/ In v (map pid (pargs p)) \/ In v (constraint_vars (flat_stmts (pstmts p))).
Proof.
  intros PF p w s [ss Ep] N Hw H. destruct (synthesize_ok _ _ _ _ Ep N Hw H) as [I [_ [L _]]]. split; [exact (si_nodup _ _ I)|]. rewrite Ep, flat_singles. exact L.
Qed.
(** Satisfaction: an assignment of the wires satisfies the system iff the assignment of the variables it stands for satisfies the program,
    and every assignment of the variables (with ~one = 1) arises like this. *)
Definition stands_for {PF : PrimeField} (s : synth) (a : wire -> F) (w : env) : Prop :=
  a WOne = w vone /\ (forall n v, nth_error (syin s) n = Some v -> a (WIn n) = w v) /\ (forall n v, nth_error (syaux s) n = Some v -> a (WAux n) = w v).
Theorem C33_equisatisfiable : forall (PF : PrimeField) p (w0 : option (smap F)) s, block_free p -> NoDup (vone :: map pid (pargs p)) -> (match w0 with Some m => ssorted m | None => True end) ->
  synthesize p w0 = Some s ->
  (forall a w, stands_for s a w -> (wsat a (sycons s) <-> sat w (flat_stmts (pstmts p)))) /\
  (forall w, exists a, stands_for s a w) /\
  (forall a, exists w, stands_for s a w).
Proof.
  intros PF p w0 s [ss Ep] N Hw H. destruct (synthesize_ok _ _ _ _ Ep N Hw H) as [I [_ [L [kss [K1 K2]]]]]. split; [|split].
  - intros a w [S1 [S2 S3]]. rewrite K2, Ep, flat_singles. eapply crel_sat; [|exact K1|reflexivity]. intros v [|n|n] W; cbn [wire_of] in W; [subst v; exact S1|apply S2; exact W|apply S3; exact W].
  - intros w. exists (fun wi => match wi with WOne => w vone | WIn n => w (nth n (syin s) vone) | WAux n => w (nth n (syaux s) vone) end). split; [reflexivity|]. split; intros n v X; rewrite (nth_error_nth _ _ _ X); reflexivity.
  - intros a. exists (fun v => match sget v (sysym s) with Some wi => a wi | None => f0 end).
    assert (G : forall v wi, wire_of s v wi -> sget v (sysym s) = Some wi) by (intros v wi; apply (si_sym _ _ I)).
    split; [rewrite (G vone WOne eq_refl); reflexivity|]. split; intros n v X; [rewrite (G v (WIn n) X)|rewrite (G v (WAux n) X)]; reflexivity.
Qed.
(** When proving, the values of the wires are those of the witness. *)
Theorem C33_proving_values : forall (PF : PrimeField) p (w : smap F) s, block_free p -> NoDup (vone :: map pid (pargs p)) -> ssorted w -> sget vone w = Some f1 ->
  synthesize p (Some w) = Some s ->
  stands_for s (cs_values s) (env_of w) /\ (wsat (cs_values s) (sycons s) <-> sat (env_of w) (flat_stmts (pstmts p))).
Proof.
  intros PF p w s B N Hw H1 H. assert (S0 : stands_for s (cs_values s) (env_of w)).
  { pose proof B as [ss Ep]. destruct (synthesize_ok p ss (Some w) s Ep N Hw H) as [I _]. destruct (si_vals _ _ I) as [r [_ [_ [_ [_ [V1 V2]]]]]].
    assert (G : forall (vs : list var) (xs : list F), Forall2 (fun v x => sget v w = Some x) vs xs -> forall n v, nth_error vs n = Some v -> nth n xs f0 = env_of w v).
    { intros vs xs X. induction X as [|u x vs xs Hx X IH]; intros n v Hn; [destruct n; discriminate Hn|]. destruct n as [|n]; cbn in *; [injection Hn as <-; unfold env_of; rewrite Hx; reflexivity|apply IH; exact Hn]. }
    split; [unfold env_of; rewrite H1; reflexivity|]. split; intros n v X; cbn [cs_values]; [apply (G _ _ V1)|apply (G _ _ V2)]; exact X. }
  split; [exact S0|]. destruct (C33_equisatisfiable PF p (Some w) s B N Hw H) as [A _]. apply A. exact S0.
Qed.

(** ** C34 *)
Section Order.
Context {PF : PrimeField}.
Lemma new_outputs_inner : forall vs seen, Forall inner vs -> new_outputs seen vs = [].
Proof. induction vs as [|v vs IH]; intros seen H; [reflexivity|]. inversion H; subst. cbn [new_outputs]. unfold inner in H2. rewrite H2. cbn [andb]. auto. Qed.
Lemma new_outputs_skip : forall a b seen, Forall inner a -> new_outputs seen (a ++ b) = new_outputs seen b.
Proof. induction a as [|v a IH]; intros b seen H; [reflexivity|]. inversion H; subst. cbn [app new_outputs]. unfold inner in H2. rewrite H2. cbn [andb]. auto. Qed.
Lemma new_outputs_tags : forall ss ts seen, tags ss ts -> NoDup ts -> (forall i, In i ts -> ~ In (vpub i) seen) -> new_outputs seen (flat_map cvars (map Single ss)) = map vpub ts.
Proof.
  induction ss as [|s ss IH]; intros ts seen T N H.
  - destruct T as [tss [T <-]]. inversion T; subst. reflexivity.
  - apply tags_cons in T as [t [r [T1 [T2 ->]]]]. cbn [map flat_map]. destruct T1 as [[-> Tv]|[q [i [err [-> [Tq ->]]]]]].
    + cbn [app]. rewrite new_outputs_skip; [apply IH; auto|]. destruct s as [q l e| |]; cbn [cvars]; try constructor. cbn [stmt_vars] in Tv. unfold q_vars in Tv. rewrite <- app_assoc in Tv. exact Tv.
    + cbn [cvars lc_vars map fst]. unfold q_vars in Tq. rewrite !app_assoc, <- app_assoc. rewrite new_outputs_skip by exact Tq. cbn [app new_outputs map]. rewrite vpub_is_output.
      assert (M : mem (vpub i) seen = false) by (destruct (mem (vpub i) seen) eqn:M; auto; apply mem_In in M; destruct (H i (or_introl eq_refl) M)). rewrite M. cbn [andb negb]. f_equal.
      cbn [app] in N. apply NoDup_cons_iff in N as [N1 N2]. apply IH; auto. intros j Hj [X|X]; [apply vpub_inj in X; subst; contradiction|]. apply (H j); [right; exact Hj|exact X].
Qed.
Lemma exec_sorted : forall solve ss w log w' log', ssorted w -> exec_stmts solve w log ss = Done w' log' -> ssorted w'.
Proof.
  intros solve. induction ss as [|s ss IH]; intros w log w' log' Hw H; cbn [exec_stmts] in H; [injection H as <- <-; exact Hw|].
  destruct s as [q l e|outs sv ins|fm es].
  - destruct (is_assignee w l); [destruct (evaluate_quad w q); [|discriminate H]; eapply IH; [|exact H]; apply sput_sorted; exact Hw|]. destruct (evaluate_quad w q); [|discriminate H]. destruct (evaluate_lin w l); [|discriminate H]. destruct (Feqb _ _); [|discriminate H]. eapply IH; eauto.
  - destruct (opt_list _); [|discriminate H]. destruct (solve sv l) as [res|]; [|discriminate H]. destruct (put_outputs w outs res) as [w1|] eqn:P; [|discriminate H]. eapply IH; [|exact H]. clear - Hw P. revert w res P Hw.
    induction outs as [|o outs IH]; intros w res P Hw; cbn [put_outputs] in P; [injection P as <-; exact Hw|]. destruct res as [|x res]; [discriminate P|]. eapply IH; [exact P|]. apply sput_sorted. exact Hw.
  - destruct (opt_list _); [|discriminate H]. eapply IH; eauto.
Qed.
Lemma exec_prog_sorted : forall solve args ss inputs w log, exec_prog solve args ss inputs = Done w log -> ssorted w.
Proof.
  intros solve args ss inputs w log H. unfold exec_prog in H. destruct (Nat.eqb _ _); [|discriminate H]. eapply exec_sorted; [|exact H]. unfold init_witness. generalize (combine args inputs). assert (G : ssorted (sput vone f1 [])) by (apply sput_sorted; constructor). revert G. generalize (sput vone f1 (@nil (Z * F))).
  intros m Hm l. revert m Hm. induction l as [|[a x] l IH]; intros m Hm; cbn [fold_left]; [exact Hm|]. apply IH. apply sput_sorted. exact Hm.
Qed.
(* the outputs in a witness *)
Lemma outputs_count : forall (w : smap F) n, ssorted w -> (forall v, is_output v = true -> ((exists x, sget v w = Some x) <-> exists i, (i < n)%nat /\ v = vpub i)) ->
  length (filter (fun kv => is_output (fst kv)) w) = n.
Proof.
  intros w n Hw H.
  assert (N1 : NoDup (map fst (filter (fun kv => is_output (fst kv)) w))).
  { clear H. induction Hw as [|k v r Hk Hr IH]; cbn; [constructor|]. assert (G : ~ In k (map fst (filter (fun kv => is_output (fst kv)) r))).
    { intros X. apply in_map_iff in X as [kv [E X]]. apply filter_In in X as [X _]. rewrite Forall_forall in Hk. specialize (Hk _ X). destruct kv as [k0 v0]. cbn [fst] in E, Hk. subst k0. exact (Z.lt_irrefl _ Hk). }
    destruct (is_output k); cbn; [constructor; auto|exact IH]. }
  assert (N2 : NoDup (map vpub (seq 0 n))) by (apply FinFun.Injective_map_NoDup; [intros a b; apply vpub_inj|apply seq_NoDup]).
  assert (Ln : length (map fst (filter (fun kv => is_output (fst kv)) w)) = length (map vpub (seq 0 n))); [|rewrite !map_length, seq_length in Ln; exact Ln].
  apply Nat.le_antisymm; apply NoDup_incl_length; auto.
  - intros v X. apply in_map_iff in X as [[k x] [<- X]]. apply filter_In in X as [X Y]. cbn in Y. destruct (proj1 (H k Y) (ex_intro _ x (In_sget _ _ _ Hw X))) as [i [Hi ->]]. cbn [fst]. apply in_map, in_seq. lia.
  - intros v X. apply in_map_iff in X as [i [<- X]]. apply in_seq in X. destruct (proj2 (H (vpub i) (vpub_is_output i)) (ex_intro _ i (conj (proj2 X) eq_refl))) as [x Hx].
    apply in_map_iff. exists (vpub i, x). split; [reflexivity|]. apply filter_In. split; [|apply vpub_is_output]. clear - Hx. induction w as [|[k y] w IH]; cbn in Hx; [discriminate Hx|]. destruct (Z.eqb_spec (vpub i) k) as [<-|]; [injection Hx as <-; left; reflexivity|].
    right. apply IH. exact Hx.
Qed.
Lemma opt_list_f2 : forall (w : smap F) (vs : list var) (xs : list F), Forall2 (fun v x => sget v w = Some x) vs xs -> opt_list (map (fun v => sget v w) vs) = Some xs.
Proof. intros w vs xs H. induction H as [|v x vs xs Hx H IH]; cbn; [reflexivity|]. rewrite Hx, IH. reflexivity. Qed.
Lemma f2_app_inv : forall (P : var -> F -> Prop) a b xs, Forall2 P (a ++ b) xs -> exists x y, xs = x ++ y /\ Forall2 P a x /\ Forall2 P b y.
Proof. intros P a b xs H. apply Forall2_app_inv_l in H as [x [y [H1 [H2 ->]]]]. eauto. Qed.
Lemma run_facts : forall solve args n ss (inputs : list F) w log, arity_ok solve -> def_before_use args ss = true -> NoDup (vone :: map pid args) -> Forall inner (map pid args) -> tags ss (seq 0 n) ->
  exec_prog solve args ss inputs = Done w log ->
  ssorted w /\ sget vone w = Some f1 /\ covers w (mkProg args n (map Single ss)) /\ sat (env_of w) ss /\
  (forall v, is_output v = true -> ((exists x, sget v w = Some x) <-> exists i, (i < n)%nat /\ v = vpub i)).
Proof.
  intros solve args n ss inputs w log Ha Hd N Hi T H. set (p := mkProg args n (map Single ss)).
  pose proof (exec_prog_sorted _ _ _ _ _ _ H) as Hw. unfold def_before_use in Hd. destruct (intro_all (vone :: map pid args) ss) as [D|] eqn:Ei; [|discriminate Hd].
  destruct (exec_follows solve args ss inputs w log D Ha Ei N H) as [_ [X2 [_ [X4 [_ [_ X7]]]]]]. destruct (intro_all_vars _ _ _ Ei) as [V1 V2].
  assert (Cv : incl (constraint_vars ss) D). { intros v X. unfold constraint_vars in X. apply in_flat_map in X as [s0 [X Y]]. rewrite Forall_forall in V2. specialize (V2 _ X). destruct s0; [apply V2; exact Y|destruct Y|destruct Y]. }
  assert (C : covers w p). { intros v X _. cbn [p pargs pstmts] in X. rewrite flat_singles in X. apply X7. apply in_app_or in X as [X|X]; [apply V1; right; exact X|apply Cv; exact X]. }
  assert (H1 : sget vone w = Some f1). { destruct (proj1 (X7 vone) (V1 _ (or_introl eq_refl))) as [x Hx]. unfold env_of in X2. rewrite Hx in X2. congruence. }
  split; [exact Hw|]. split; [exact H1|]. split; [exact C|]. split; [exact X4|].
  intros v O. rewrite <- X7. split.
  - intros X. assert (Dv : In v (vone :: map pid args) \/ exists s0, In s0 ss /\ In v (stmt_vars s0)).
      { clear - X Ei. revert Ei. generalize (vone :: map pid args). induction ss as [|s0 ss IH]; intros d Ei; cbn [intro_all] in Ei; [injection Ei as ->; auto|]. destruct (intro d s0) as [d1|] eqn:E; [|discriminate Ei].
        destruct (IH _ Ei) as [Y|[s1 [Y Z]]]; [|right; exists s1; split; [right; exact Y|exact Z]]. assert (K : In v d \/ In v (stmt_vars s0)).
        { destruct s0 as [q l e|outs sv ins|fm es]; cbn [intro stmt_vars] in *.
          - destruct (subset (q_vars q) d); [|discriminate E]. destruct (subset (lc_vars l) d); [injection E as <-; auto|]. destruct l as [|[u c] [|]]; try discriminate E. destruct (Feqb c f1); [|discriminate E]. injection E as <-. destruct Y as [<-|Y]; auto. right. apply in_or_app. right. left. reflexivity.
          - destruct (_ && _) in E; [|discriminate E]. injection E as <-. apply in_app_or in Y as [Y|Y]; auto. right. apply in_or_app. auto.
          - destruct (subset _ _) in E; [|discriminate E]. injection E as <-. auto. }
        destruct K as [K|K]; auto. right. exists s0. split; [left; reflexivity|exact K]. }
      destruct Dv as [[Y|Y]|[s0 [Y Z]]]; [subst v; discriminate O|rewrite Forall_forall in Hi; specialize (Hi _ Y); unfold inner in Hi; congruence|].
      clear - T Y Z O. assert (K : forall ts, tags ss ts -> exists i, In i ts /\ v = vpub i).
      { clear T. induction ss as [|s1 ss IH]; intros ts T; [destruct Y|]. apply tags_cons in T as [t [r [T1 [T2 ->]]]]. destruct Y as [->|Y]; [|destruct (IH Y r T2) as [i [A B]]; exists i; split; [apply in_or_app; right; exact A|exact B]].
        destruct T1 as [[-> Tv]|[q [i [err [-> [Tq ->]]]]]]; [rewrite Forall_forall in Tv; specialize (Tv _ Z); unfold inner in Tv; congruence|]. cbn [stmt_vars] in Z. apply in_app_or in Z as [Z|[Z|[]]]; [rewrite Forall_forall in Tq; specialize (Tq _ Z); unfold inner in Tq; congruence|].
        exists i. split; [left; reflexivity|symmetry; exact Z]. }
      destruct (K _ T) as [i [Hi' Ev]]. exists i. split; [apply in_seq in Hi'; lia|exact Ev].
  - intros [i [Hi' ->]]. apply Cv. assert (K : forall l ts, tags l ts -> In i ts -> In (vpub i) (constraint_vars l)).
      { induction l as [|s1 l IH]; intros ts T' X; [destruct T' as [tss [T' <-]]; inversion T'; subst; destruct X|]. apply tags_cons in T' as [t [r' [T1 [T2 ->]]]]. unfold constraint_vars. cbn [flat_map]. apply in_or_app. apply in_app_or in X as [X|X]; [left|right; eapply IH; eauto].
        destruct T1 as [[-> _]|[q [j [err [-> [_ ->]]]]]]; [destruct X|]. destruct X as [->|[]]. apply in_or_app. right. left. reflexivity. }
      eapply K; [exact T|]. apply in_seq. lia.
Qed.
(** a program whose return variables are defined in order, run by the interpreter and given to a backend *)
Lemma backend_run : forall solve args n ss (inputs : list F) w log, arity_ok solve -> def_before_use args ss = true -> NoDup (vone :: map pid args) -> Forall inner (map pid args) -> tags ss (seq 0 n) ->
  exec_prog solve args ss inputs = Done w log ->
  exists s, synthesize (mkProg args n (map Single ss)) (Some w) = Some s /\ wsat (cs_values s) (sycons s) /\
    syin s = map pid (filter (fun a => negb (pprivate a)) args) ++ map vpub (seq 0 n) /\
    public_inputs_values (mkProg args n (map Single ss)) w = Some (syinv s).
Proof.
  intros solve args n ss inputs w log Ha Hd N Hi T H. set (p := mkProg args n (map Single ss)).
  assert (B : block_free p) by (exists ss; reflexivity). destruct (run_facts solve args n ss inputs w log Ha Hd N Hi T H) as [Hw [H1 [C [X4 Ho]]]].
  destruct (C33_proving_total PF p w B N Hw C) as [s Es]. exists s. split; [exact Es|]. destruct (C33_proving_values PF p w s B N Hw H1 Es) as [_ S0]. cbn [p pstmts] in S0. rewrite flat_singles in S0. split; [apply S0; exact X4|].
  destruct (synthesize_ok p ss (Some w) s eq_refl N Hw Es) as [I [Si _]]. cbn [p pargs] in Si.
  assert (Hno : forall i, ~ In (vpub i) (vone :: map pid args)). { intros i [X|X]; [unfold vone, vpub in X; lia|]. rewrite Forall_forall in Hi. exact (vpub_out i (Hi _ X)). }
  rewrite (new_outputs_tags ss (seq 0 n) _ T (seq_NoDup _ _) (fun i _ => Hno i)) in Si. split; [exact Si|].
  destruct (si_vals _ _ I) as [r [_ [_ [_ [_ [F1 _]]]]]]. rewrite Si in F1. apply f2_app_inv in F1 as [x [y [E [Fa Fb]]]].
  unfold public_inputs_values, return_values. cbn [p pargs]. rewrite (outputs_count w n Hw).
  - apply opt_list_f2 in Fa, Fb. rewrite map_map in Fa, Fb. rewrite Fa, Fb, E. reflexivity.
  - exact Ho.
Qed.
End Order.

(** A compiled program, run by the interpreter: proving succeeds, the system is satisfied, the public wires are the public arguments in the
    order of the declaration followed by the return values in order, and their values are the list given to the verifier. *)
Theorem C34_compiled : forall (PF : PrimeField) ext p c (inputs : list F) w log, ends_return p -> compile p = Some c ->
  exec_prog (exec_solver ext) (pargs c) (flat_stmts (pstmts c)) inputs = Done w log ->
  exists s, synthesize c (Some w) = Some s /\ wsat (cs_values s) (sycons s) /\
    syin s = map pid (filter (fun a => negb (pprivate a)) (pargs c)) ++ map vpub (seq 0 (zret p)) /\
    public_inputs_values c w = Some (syinv s).
Proof.
  intros PF ext p c inputs w log Hr H E. destruct (compile_tags _ _ Hr H) as [T Hi]. destruct (compile_def_before_use _ _ Hr H) as [Hd [N _]].
  destruct (compile_inv _ _ H) as [prms [em [ss [_ [_ ->]]]]]. cbn [pargs pstmts] in *. rewrite flat_singles in *. eapply backend_run; eauto. apply exec_solver_arity.
Qed.
Print Assumptions C34_compiled.
(** ... and after the optimiser (with the collision-free hash its duplicate removal needs, C09). *)
Theorem C34_optimized : forall (PF : PrimeField) ext (hash : stmt -> Z) p c c' s4 (inputs : list F) w log, ends_return p -> compile p = Some c ->
  optimize_4 (exec_solver ext) (pargs c) (pret c) (flat_stmts (pstmts c)) = Some s4 ->
  (forall a b, In a s4 -> In b s4 -> hash a = hash b -> strip a = strip b) ->
  optimize (exec_solver ext) hash c = Some c' ->
  exec_prog (exec_solver ext) (pargs c') (flat_stmts (pstmts c')) inputs = Done w log ->
  exists s, synthesize c' (Some w) = Some s /\ wsat (cs_values s) (sycons s) /\
    syin s = map pid (filter (fun a => negb (pprivate a)) (pargs c')) ++ map vpub (seq 0 (zret p)) /\
    public_inputs_values c' w = Some (syinv s).
Proof.
  intros PF ext hash p c c' s4 inputs w log Hr H H4 Hh Ho E. destruct (compile_tags _ _ Hr H) as [T Hi]. destruct (compile_def_before_use _ _ Hr H) as [Hd [N _]].
  destruct (compile_inv _ _ H) as [prms [em [ss [_ [_ ->]]]]]. cbn [pargs pstmts pret] in *. rewrite flat_singles in *.
  rewrite optimize_is_flat in Ho. destruct (optimize_flat (exec_solver ext) hash prms (zret p) ss) as [out|] eqn:Ef; [|discriminate Ho]. injection Ho as <-. cbn [pargs pstmts] in *. rewrite flat_singles in *.
  pose proof Hd as Hd'. unfold def_before_use in Hd'. destruct (intro_all (vone :: map pid prms) ss) as [D1|] eqn:Ei; [|discriminate Hd'].
  destruct (optimize_flat_ok (exec_solver ext) hash prms (zret p) ss s4 out D1 Ei H4 Hh Ef) as [[K1 [A1 _]] _].
  eapply (backend_run (exec_solver ext)); eauto; [apply exec_solver_arity|unfold def_before_use; rewrite A1; reflexivity|]. eapply optimize_tags; eauto.
Qed.
Print Assumptions C34_optimized.

(** Example: def main(private field a, field b) -> (field, field) { return (a * b, b + a); }, over the field with 97 elements *)
Definition bk_prog : @zprog pf97 := mkZProg [mkZParam 1 PF_ true; mkZParam 2 PF_ false] [ZReturn [ZFBin FMul (ZId KF 1) (ZId KF 2); ZFBin FAdd (ZId KF 2) (ZId KF 1)]] 2.
Definition bk_show (c : option (@prog pf97)) (inputs : list (@F pf97)) : option (list var * list Z * list var * nat) :=
  match c with
  | None => None
  | Some c => match exec_prog (exec_solver (fun _ _ => None)) (pargs c) (flat_stmts (pstmts c)) inputs with
              | Done w _ => match synthesize c (Some w) with Some s => Some (syin s, map fval (syinv s), syaux s, length (sycons s)) | None => None end
              | _ => None
              end
  end.
Example C34_nonvacuous : ends_return bk_prog /\ bk_show (compile bk_prog) [of_Z 5; of_Z 20] = Some ([2; vpub 0; vpub 1], [20; 3; 25], [1], 2%nat).
Proof. split; [exists [], [ZFBin FMul (ZId KF 1) (ZId KF 2); ZFBin FAdd (ZId KF 2) (ZId KF 1)]; split; [reflexivity|]; split; [reflexivity|constructor]|vm_compute; reflexivity]. Qed.

(** The order is that of the first occurrence: in a program (not produced by the compiler) which defines ~out_1 before ~out_0, the public
    wires do not carry the list given to the verifier. *)
Definition swap_prog : @prog pf97 :=
  mkProg [] 2 (map Single [Constraint (q_of_lc (lc_const f1)) [(vpub 1, f1)] None; Constraint (q_of_lc (lc_const (of_Z 2))) [(vpub 0, f1)] None]).
Definition swap_run : option (list Z * list Z) :=
  match exec_prog (exec_solver (fun _ _ => None)) [] (flat_stmts (pstmts swap_prog)) [] with
  | Done w _ => match synthesize swap_prog (Some w), public_inputs_values swap_prog w with Some s, Some l => Some (map fval (syinv s), map fval l) | _, _ => None end
  | _ => None
  end.
Theorem C34_other_orders_refuted : exists (PF : PrimeField) (p : @prog PF) w log s l, block_free p /\
  def_before_use (pargs p) (flat_stmts (pstmts p)) = true /\
  exec_prog (exec_solver (fun _ _ => None)) (pargs p) (flat_stmts (pstmts p)) [] = Done w log /\
  synthesize p (Some w) = Some s /\ public_inputs_values p w = Some l /\ syinv s <> l.
Proof.
  assert (H : swap_run = Some ([1; 2], [2; 1])) by (vm_compute; reflexivity). unfold swap_run in H.
  destruct (exec_prog _ _ _ _) as [w log| | | |] eqn:E in H; try discriminate H. destruct (synthesize swap_prog (Some w)) as [s|] eqn:S; [|discriminate H]. destruct (public_inputs_values swap_prog w) as [l|] eqn:L; [|discriminate H].
  exists pf97, swap_prog, w, log, s, l. split; [eexists; reflexivity|]. split; [vm_compute; reflexivity|]. split; [exact E|]. split; [exact S|]. split; [exact L|]. intros X. injection H as H1 H2. rewrite X in H1. rewrite H1 in H2. discriminate H2.
Qed.
(** Blocks are skipped: without the cleaning pass that ends compilation, their constraints would be lost. *)
Section Blocks.
Context {PF : PrimeField}.
Add Ring Fring_bk : F_ring_th.
Lemma blocks_skipped : exists p k, synthesize p None = Some k /\ sycons k = [] /\ ~ exists w : env, w vone = f1 /\ sat w (flat_stmts (pstmts p)).
Proof.
  exists (mkProg [] 0 [Block [Constraint (q_of_lc [(vone, f1)]) [] None]]). eexists. split; [reflexivity|]. split; [reflexivity|]. intros [w [W H]]. unfold sat in H. cbn [pstmts flat_stmts flat_map app] in H. inversion H as [|? ? X _]; subst. apply F_1_neq_0.
  cbn [sat_stmt eval_quad q_of_lc qleft qright eval_lin] in X. unfold eval_quad, q_of_lc in X. cbn [qleft qright eval_lin] in X. unfold lc_one, lc_summand in X. cbn [eval_lin] in X. rewrite W in X. rewrite <- X. ring.
Qed.
End Blocks.
Theorem C33_blocks_are_skipped : forall (PF : PrimeField), exists p k, synthesize p None = Some k /\ sycons k = [] /\ ~ exists w : env, w vone = f1 /\ sat w (flat_stmts (pstmts p)).
Proof. intros PF. apply blocks_skipped. Qed.
