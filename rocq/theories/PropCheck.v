(** Model and property theorems: detection of unconstrained variables (C32). *)
From Coq Require Import ZArith List Bool Lia.
From Verif Require Import PField SMap IR IRSpec Wf InterpProofs Concrete Primality.
Import ListNotations.
Open Scope Z_scope.

Section Check.
Context {PF : PrimeField}.
(** /repo/zokrates_ast/src/ir/check.rs: the HashSet of variables not seen in a constraint yet, as a list without duplicates. *)
Definition drop_all (vs : list var) (S : list var) : list var := filter (fun v => negb (mem v vs)) S.
Fixpoint insert_all (vs : list var) (S : list var) : list var :=
  match vs with [] => S | v :: r => insert_all r (if mem v S then S else v :: S) end.
(** check.rs l.36-52, with folder.rs l.72-160: fold_variable is called on every variable of a constraint or log, in order; a
    directive's outputs are added, its inputs ignored *)
Definition check_stmt (S : list var) (s : stmt) : list var :=
  match s with
  | Constraint q l _ => drop_all (lc_vars l) (drop_all (lc_vars (qright q)) (drop_all (lc_vars (qleft q)) S))
  | Directive outs _ _ => insert_all outs S
  | Log _ es => fold_left (fun S e => drop_all (lc_vars e) S) es S
  end.
(** check.rs l.16-27 new, l.29-34 finalize: [inl tt] is Ok, [inr n] is Err(n); serialize.rs l.212-262 runs it over the statements *)
Definition detector (p : prog) : list var :=
  fold_left check_stmt (flat_stmts (pstmts p)) (insert_all (map pid (filter pprivate (pargs p))) []).
Definition check_prog (p : prog) : unit + nat := match detector p with [] => inl tt | vs => inr (length vs) end.

(** ** Specification *)
(** the variable occurs in a constraint or in a log *)
Definition seen (v : var) (s : stmt) : Prop := match s with Directive _ _ _ => False | _ => In v (stmt_vars s) end.
Definition in_constraint (v : var) (s : stmt) : Prop := match s with Constraint _ _ _ => In v (stmt_vars s) | _ => False end.
Definition private_input (p : prog) (v : var) : Prop := exists a, In a (pargs p) /\ pprivate a = true /\ pid a = v.
Definition written (v : var) (s : stmt) : Prop := match s with Directive outs _ _ => In v outs | _ => False end.
(** v is a private input that is seen nowhere, or the output of a directive seen nowhere after it *)
Definition unconstrained (p : prog) (v : var) : Prop :=
  private_input p v /\ ~ (exists s, In s (flat_stmts (pstmts p)) /\ seen v s) \/
  exists before d after, flat_stmts (pstmts p) = before ++ d :: after /\ written v d /\ ~ (exists s, In s after /\ seen v s).

Lemma drop_all_In : forall vs S v, In v (drop_all vs S) <-> In v S /\ ~ In v vs.
Proof. intros vs S v. unfold drop_all. rewrite filter_In, negb_true_iff. rewrite <- (mem_In v vs). destruct (mem v vs); split; intros [A B]; split; auto; try discriminate; congruence. Qed.
Lemma insert_all_In : forall vs S v, In v (insert_all vs S) <-> In v vs \/ In v S.
Proof.
  induction vs as [|w vs IH]; intros S v; cbn [insert_all]; [cbn; tauto|]. rewrite IH. cbn [In]. destruct (mem w S) eqn:E; cbn [In].
  - apply mem_In in E. intuition congruence.
  - tauto.
Qed.
Lemma drop_all_NoDup : forall vs S, NoDup S -> NoDup (drop_all vs S). Proof. intros. apply NoDup_filter. assumption. Qed.
Lemma insert_all_NoDup : forall vs S, NoDup S -> NoDup (insert_all vs S).
Proof.
  induction vs as [|w vs IH]; intros S H; cbn [insert_all]; auto. apply IH. destruct (mem w S) eqn:E; auto. constructor; auto. intros X. apply mem_In in X. congruence.
Qed.
Lemma check_stmt_In : forall S s v, In v (check_stmt S s) <-> written v s \/ In v S /\ ~ seen v s.
Proof.
  intros S [q l e|outs sv ins|fm es] v; cbn [check_stmt written seen].
  - rewrite !drop_all_In. unfold stmt_vars, q_vars. rewrite !in_app_iff. tauto.
  - rewrite insert_all_In. tauto.
  - unfold stmt_vars. rewrite in_flat_map. assert (G : In v (fold_left (fun S e => drop_all (lc_vars e) S) es S) <-> In v S /\ ~ exists x, In x es /\ In v (lc_vars x)); [|tauto].
    revert S. induction es as [|e es IH]; intros S; cbn [fold_left]; [firstorder|]. rewrite IH, drop_all_In. split.
    + intros [[A B] C]. split; auto. intros [x [[<-|X] Y]]; [auto|apply C; eauto].
    + intros [A B]. split; [split; auto|]; [intros X; apply B; exists e; split; [left; reflexivity|exact X]|intros [x [X Y]]; apply B; exists x; split; [right; exact X|exact Y]].
Qed.
Lemma check_stmt_NoDup : forall S s, NoDup S -> NoDup (check_stmt S s).
Proof.
  intros S [q l e|outs sv ins|fm es] H; cbn [check_stmt]; [repeat apply drop_all_NoDup; auto|apply insert_all_NoDup; auto|].
  revert S H. induction es as [|e es IH]; intros S H; cbn [fold_left]; auto. apply IH, drop_all_NoDup, H.
Qed.
Lemma fold_In : forall ss S v, In v (fold_left check_stmt ss S) <->
  In v S /\ ~ (exists s, In s ss /\ seen v s) \/ exists before d after, ss = before ++ d :: after /\ written v d /\ ~ (exists s, In s after /\ seen v s).
Proof.
  induction ss as [|s ss IH]; intros S v; cbn [fold_left].
  - split; [intros H; left; split; auto; intros [x [[] _]]|]. intros [[H _]|[b [d [a [E _]]]]]; auto. destruct b; discriminate E.
  - rewrite IH, check_stmt_In. split.
    + intros [[[W|[I N]] N2]|[b [d [a [E [W N]]]]]].
      * right. exists [], s, ss. auto.
      * left. split; auto. intros [x [[<-|X] Y]]; [auto|apply N2; eauto].
      * right. exists (s :: b), d, a. rewrite E. auto.
    + intros [[I N]|[b [d [a [E [W N]]]]]].
      * left. split; [right; split; auto; intros X; apply N; exists s; split; [left; reflexivity|exact X]|]. intros [x [X Y]]. apply N. exists x. split; [right; exact X|exact Y].
      * destruct b as [|b0 b]; cbn in E; injection E as -> ->; [left; auto|]. right. exists b, d, a. auto.
Qed.
Lemma detector_In : forall p v, In v (detector p) <-> unconstrained p v.
Proof.
  intros p v. unfold detector, unconstrained. rewrite fold_In, insert_all_In.
  assert (P : In v (map pid (filter pprivate (pargs p))) \/ In v [] <-> private_input p v); [|tauto].
  unfold private_input. rewrite in_map_iff. split.
  - intros [[a [A B]]|[]]. apply filter_In in B. exists a. tauto.
  - intros [a [A [B C]]]. left. exists a. rewrite filter_In. auto.
Qed.
Lemma detector_NoDup : forall p, NoDup (detector p).
Proof.
  intros p. unfold detector. assert (G : forall ss S, NoDup S -> NoDup (fold_left check_stmt ss S)) by (induction ss as [|s ss IH]; intros S H; cbn [fold_left]; auto; apply IH, check_stmt_NoDup, H).
  apply G, insert_all_NoDup. constructor.
Qed.
Lemma fresh_not_before : forall ss seen0 b d a v, fresh_outs seen0 ss -> ss = b ++ d :: a -> written v d -> forall s, In s b -> ~ seen v s.
Proof.
  induction ss as [|s0 ss IH]; intros seen0 b d a v H E W s Hs; [destruct b; discriminate E|]. destruct b as [|b0 b]; [destruct Hs|]. cbn in E. injection E as <- ->. cbn [fresh_outs] in H. destruct H as [_ H].
  destruct Hs as [<-|Hs]; [|eapply IH; eauto].
  assert (G : forall sn, incl (stmt_vars s0) sn -> fresh_outs sn (b ++ d :: a) -> ~ In v (stmt_vars s0)).
  { clear - W. induction b as [|x b IHb]; intros sn I H; cbn [app fresh_outs] in H.
    - destruct d as [| outs sv ins|]; try contradiction W. destruct H as [[_ H] _]. intros X. destruct (H v W) as [K _]. apply K, I, X.
    - destruct H as [_ H]. eapply IHb; [|exact H]. intros y Y. apply in_or_app. auto. }
  intros X. eapply G; [|exact H|]. { intros y Y. apply in_or_app. left. exact Y. } destruct s0; cbn in X; try contradiction; exact X.
Qed.
End Check.

(** The number reported is the number of unconstrained variables; Ok iff there is none. *)
Theorem C32_exact : forall (PF : PrimeField) p,
  exists S, NoDup S /\ (forall v, In v S <-> unconstrained p v) /\ check_prog p = match S with [] => inl tt | _ => inr (length S) end.
Proof. intros PF p. exists (detector p). split; [apply detector_NoDup|]. split; [apply detector_In|]. unfold check_prog. destruct (detector p); reflexivity. Qed.
Print Assumptions C32_exact.
(** For programs whose directives write fresh variables: accepted iff every private input and every directive output occurs in a
    constraint or log. *)
Theorem C32_accepts_iff : forall (PF : PrimeField) p, fresh_outs [] (flat_stmts (pstmts p)) ->
  (check_prog p = inl tt <->
   (forall v, private_input p v \/ (exists d, In d (flat_stmts (pstmts p)) /\ written v d) -> exists s, In s (flat_stmts (pstmts p)) /\ seen v s)).
Proof.
  intros PF p Hf. assert (A : check_prog p = inl tt <-> forall v, ~ unconstrained p v).
  { unfold check_prog. split.
    - intros H v U. apply detector_In in U. destruct (detector p) eqn:E; [destruct U|cbn in H; discriminate H].
    - intros H. destruct (detector p) as [|v S] eqn:E; [reflexivity|]. exfalso. apply (H v), detector_In. rewrite E. left. reflexivity. }
  rewrite A. clear A. assert (Dec : forall v ss, (exists s, In s ss /\ seen v s) \/ ~ exists s, In s ss /\ seen v s).
  { intros v ss. induction ss as [|s ss IH]; [right; intros [s [[] _]]|].
    assert (D : seen v s \/ ~ seen v s) by (destruct s; cbn [seen]; try (destruct (in_dec Z.eq_dec v (stmt_vars (Constraint q l err))); auto; fail); auto; destruct (in_dec Z.eq_dec v (stmt_vars (Log fmt es))); auto).
    destruct D as [D|D]; [left; exists s; split; [left; reflexivity|exact D]|]. destruct IH as [[x [X Y]]|IH]; [left; exists x; split; [right; exact X|exact Y]|]. right. intros [x [[<-|X] Y]]; [auto|apply IH; eauto]. }
  split.
  - intros H v V. destruct (Dec v (flat_stmts (pstmts p))) as [D|D]; [exact D|]. exfalso. apply (H v). destruct V as [V|[d [I W]]]; [left; auto|]. right. apply in_split in I as [b [a E]]. exists b, d, a. split; [exact E|]. split; [exact W|].
    intros [x [X Y]]. apply D. exists x. split; [rewrite E; apply in_or_app; right; right; exact X|exact Y].
  - intros H v [[V N]|[b [d [a [E [W N]]]]]].
    + apply N, H. left. exact V.
    + destruct (H v) as [s [I Sn]]; [right; exists d; split; [rewrite E; apply in_elt|exact W]|]. rewrite E in I. apply in_app_or in I as [I|[<-|I]].
      * exact (fresh_not_before _ _ _ _ _ _ Hf E W _ I Sn).
      * destruct d; cbn in *; contradiction.
      * apply N. eauto.
Qed.
Print Assumptions C32_accepts_iff.

(** ** Over BN254: a rejected program and accepted ones *)
Definition lc1 (v : var) : @lincomb bn254 := [(v, f1)].
(** _0 private; directive writes _1, _2; only _0 and _1 are constrained *)
Definition bad_prog : @prog bn254 := mkProg [mkParam 1 true] 0 [Single (Directive [2; 3] SConditionEq [q_of_lc (lc1 1)]); Single (Constraint (mkQ (lc1 1) (lc1 2)) (lc1 1) None)].
Definition good_prog : @prog bn254 := mkProg [mkParam 1 true] 0 [Single (Directive [2; 3] SConditionEq [q_of_lc (lc1 1)]); Single (Constraint (mkQ (lc1 1) (lc1 2)) (lc1 3) None)].
Example C32_nonvacuous : check_prog bad_prog = inr 1%nat /\ check_prog good_prog = inl tt /\ fresh_outs [] (flat_stmts (pstmts good_prog)) /\ unconstrained bad_prog 3.
Proof.
  split; [reflexivity|]. split; [reflexivity|]. split.
  - cbn. split; [split; [|intros o [<-|[<-|[]]]; (split; [tauto|intros [X|[X|[]]]; discriminate X])]|tauto]. constructor; [intros [X|[]]; discriminate X|]. constructor; [intros []|constructor].
  - right. exists [], (Directive [2; 3] SConditionEq [q_of_lc (lc1 1)]), [Constraint (mkQ (lc1 1) (lc1 2)) (lc1 1) None]. split; [reflexivity|]. split; [cbn; tauto|]. intros [s [[<-|[]] X]]. cbn in X. destruct X as [X|[X|[X|[]]]]; discriminate X.
Qed.
(** "constrained" is syntactic, and a log counts: a private input that is only logged is accepted. *)
Theorem C32_log_counts_as_constraint : exists p : @prog bn254, check_prog p = inl tt /\ private_input p 1 /\ ~ exists s, In s (flat_stmts (pstmts p)) /\ in_constraint 1 s.
Proof.
  exists (mkProg [mkParam 1 true] 0 [Single (Log 0 [lc1 1])]). split; [reflexivity|]. split; [exists (mkParam 1 true); cbn; auto|]. intros [s [[<-|[]] X]]. exact X.
Qed.
Print Assumptions C32_log_counts_as_constraint.
