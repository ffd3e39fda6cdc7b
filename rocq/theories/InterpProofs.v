(** Proofs about the interpreter. *)
From Coq Require Import ZArith List Bool Lia Ring Field.
From Verif Require Import PField SMap IR IRSpec Wf IRProofs Interp.
Import ListNotations.
Open Scope Z_scope.
Local Arguments Z.eqb : simpl never.

Section InterpProofs.
Context {PF : PrimeField}.
Add Ring Fr : F_ring_th.

Definition keys_in (w : witness) (seen : list var) : Prop := forall v x, sget v w = Some x -> In v seen.
Definition extends (w w' : witness) : Prop := forall v x, sget v w = Some x -> sget v w' = Some x.
Definition defined (w : witness) (vs : list var) : Prop := forall v, In v vs -> exists x, sget v w = Some x.

Lemma extends_refl : forall w, extends w w.
Proof. intros w v x H; exact H. Qed.
Lemma extends_trans : forall a b c, extends a b -> extends b c -> extends a c.
Proof. intros a b c H1 H2 v x H; auto. Qed.

Lemma eval_lin_fold : forall w l a,
  fold_left (fun acc t => match acc, sget (fst t) w with
                          | Some a, Some v => Some (fadd a (fmul v (snd t)))
                          | _, _ => None
                          end) l (Some a) =
  match evaluate_lin w l with Some b => Some (fadd a b) | None => None end.
Proof.
  unfold evaluate_lin. intros w l. induction l as [|[v c] r IH]; intros a; simpl.
  - f_equal. ring.
  - assert (HN : forall l, fold_left (fun acc (t : var * F) => match acc, sget (fst t) w with
                          | Some a, Some v => Some (fadd a (fmul v (snd t)))
                          | _, _ => None
                          end) l None = None) by (induction l; simpl; auto).
    destruct (sget v w) as [x|]; [|rewrite HN; auto].
    rewrite (IH (fadd a (fmul x c))), (IH (fadd f0 (fmul x c))).
    destruct (fold_left _ r (Some f0)); auto. f_equal. ring.
Qed.

Lemma evaluate_lin_spec : forall w l x, evaluate_lin w l = Some x ->
  defined w (lc_vars l) /\ x = eval_lin (env_of w) l.
Proof.
  induction l as [|[v c] r IH]; intros x H.
  - inversion H. split; [intros v []|reflexivity].
  - unfold evaluate_lin in H; simpl in H.
    destruct (sget v w) as [y|] eqn:Ev.
    + rewrite eval_lin_fold in H. destruct (evaluate_lin w r) as [b|] eqn:Er; [|discriminate].
      inversion H; subst x. destruct (IH b eq_refl) as [H1 H2]. split.
      * intros u [<-|Hu]; simpl; [eauto|apply H1; auto].
      * simpl. rewrite H2. unfold env_of. rewrite Ev. ring.
    + exfalso. assert (HN : forall l, fold_left (fun acc (t : var * F) => match acc, sget (fst t) w with
                          | Some a, Some v => Some (fadd a (fmul v (snd t)))
                          | _, _ => None
                          end) l None = None) by (induction l; simpl; auto).
      rewrite HN in H; discriminate.
Qed.

Lemma evaluate_lin_defined : forall w l, defined w (lc_vars l) ->
  evaluate_lin w l = Some (eval_lin (env_of w) l).
Proof.
  induction l as [|[v c] r IH]; intros H; [reflexivity|].
  unfold evaluate_lin; simpl. destruct (H v) as [y Ey]; [left; auto|]. rewrite Ey, eval_lin_fold, IH.
  - f_equal. unfold env_of at 2. rewrite Ey. ring.
  - intros u Hu; apply H; right; auto.
Qed.

Lemma evaluate_quad_spec : forall w q x, evaluate_quad w q = Some x ->
  defined w (q_vars q) /\ x = eval_quad (env_of w) q.
Proof.
  intros w [a b] x H. unfold evaluate_quad in H; simpl in H.
  destruct (evaluate_lin w a) as [u|] eqn:Ea; [|discriminate].
  destruct (evaluate_lin w b) as [v|] eqn:Eb; [|discriminate].
  apply evaluate_lin_spec in Ea. apply evaluate_lin_spec in Eb.
  destruct Ea as [D1 ->]. destruct Eb as [D2 ->]. inversion H; subst. split; auto.
  intros y Hy. apply in_app_or in Hy. destruct Hy; auto.
Qed.

Lemma evaluate_quad_defined : forall w q, defined w (q_vars q) ->
  evaluate_quad w q = Some (eval_quad (env_of w) q).
Proof.
  intros w [a b] H. unfold evaluate_quad; simpl.
  rewrite !evaluate_lin_defined; auto; intros v Hv; apply H, in_or_app; auto.
Qed.

Lemma extends_env : forall w w' vs, extends w w' -> defined w vs -> forall v, In v vs -> env_of w v = env_of w' v.
Proof.
  intros w w' vs He Hd v Hv. destruct (Hd v Hv) as [x Hx]. unfold env_of. rewrite Hx, (He _ _ Hx). reflexivity.
Qed.

Lemma eval_lin_extends : forall w w' l, extends w w' -> defined w (lc_vars l) ->
  eval_lin (env_of w) l = eval_lin (env_of w') l.
Proof. intros. apply eval_lin_ext. intros v Hv. eapply extends_env; eauto. Qed.
Lemma eval_quad_extends : forall w w' q, extends w w' -> defined w (q_vars q) ->
  eval_quad (env_of w) q = eval_quad (env_of w') q.
Proof. intros. apply eval_quad_ext. intros v Hv. eapply extends_env; eauto. Qed.

Lemma is_assignee_spec : forall w l v, is_assignee w l = Some v -> l = [(v, f1)] /\ sget v w = None.
Proof.
  intros w [|[u c] [|t r]] v H; simpl in H; try discriminate.
  destruct (Feqb_spec c f1) as [->|]; [|discriminate].
  destruct (sget u w) eqn:E; [discriminate|]. inversion H; subst; auto.
Qed.

Lemma sput_extends : forall v x w, sget v w = None -> extends w (sput v x w).
Proof.
  intros v x w H u y Hu. rewrite sget_sput. destruct (Z.eqb_spec u v); [congruence|auto].
Qed.

Lemma put_outputs_spec : forall outs w res w', put_outputs w outs res = Some w' ->
  (forall v, ~ In v outs -> sget v w' = sget v w) /\
  (forall v, In v outs -> exists x, sget v w' = Some x) /\
  (NoDup outs -> map (env_of w') outs = firstn (length outs) res).
Proof.
  induction outs as [|o r IH]; intros w res w' H; simpl in H.
  - inversion H; subst. repeat split; auto. intros v [].
  - destruct res as [|x xs]; [discriminate|]. apply IH in H. destruct H as [H1 [H2 H3]].
    split; [|split].
    + intros v Hv. rewrite H1 by (intros Hc; apply Hv; right; auto).
      apply sget_sput_ne. intros ->; apply Hv; left; auto.
    + intros v [<-|Hv]; [|auto]. destruct (in_dec Z.eq_dec o r) as [Hi|Hn]; [auto|].
      rewrite H1 by auto. rewrite sget_sput_eq; eauto.
    + intros Hnd. inversion Hnd; subst. simpl. rewrite H3 by auto. f_equal.
      unfold env_of. rewrite H1 by auto. rewrite sget_sput_eq. reflexivity.
Qed.

Lemma put_outputs_some : forall outs w res, length outs = length res -> exists w', put_outputs w outs res = Some w'.
Proof.
  induction outs as [|o r IH]; intros w [|x xs] H; simpl in *; try discriminate; eauto.
Qed.

Lemma opt_list_spec : forall A B (f : A -> option B) l r, opt_list (map f l) = Some r ->
  Forall2 (fun x y => f x = Some y) l r.
Proof.
  induction l as [|x l IH]; intros r H; simpl in H; [inversion H; constructor|].
  destruct (f x) eqn:E; [|discriminate]. destruct (opt_list (map f l)); [|discriminate].
  inversion H; subst. constructor; auto.
Qed.
Lemma opt_list_all : forall A B (f : A -> option B) (g : A -> B) l, (forall x, In x l -> f x = Some (g x)) ->
  opt_list (map f l) = Some (map g l).
Proof.
  induction l as [|x l IH]; intros H; simpl; auto.
  rewrite (H x) by (left; auto). rewrite IH; auto. intros y Hy; apply H; right; auto.
Qed.

Lemma quads_spec : forall w ins xs, opt_list (map (evaluate_quad w) ins) = Some xs ->
  defined w (flat_map q_vars ins) /\ xs = map (eval_quad (env_of w)) ins.
Proof.
  intros w ins xs H. apply opt_list_spec in H.
  induction H as [|q x ins xs Hq _ [IH1 IH2]]; simpl; [split; [intros v []|auto]|].
  apply evaluate_quad_spec in Hq. destruct Hq as [D ->]. split.
  - intros v Hv; apply in_app_or in Hv; destruct Hv; auto.
  - f_equal; auto.
Qed.
Lemma lins_spec : forall w es xs, opt_list (map (evaluate_lin w) es) = Some xs ->
  defined w (flat_map lc_vars es) /\ xs = map (eval_lin (env_of w)) es.
Proof.
  intros w ins xs H. apply opt_list_spec in H.
  induction H as [|q x ins xs Hq _ [IH1 IH2]]; simpl; [split; [intros v []|auto]|].
  apply evaluate_lin_spec in Hq. destruct Hq as [D ->]. split.
  - intros v Hv; apply in_app_or in Hv; destruct Hv; auto.
  - f_equal; auto.
Qed.

Variable solve : solver -> list F -> option (list F).

Lemma keys_in_app : forall w a b, keys_in w b -> keys_in w (a ++ b).
Proof. intros w a b H v x E. apply in_or_app; right. eapply H; eauto. Qed.

(** Every successful run only adds variables, and its result satisfies all executed statements. *)
Lemma exec_inv : forall ss seen w log w' log',
  fresh_outs seen ss -> keys_in w seen ->
  exec_stmts solve w log ss = Done w' log' ->
  extends w w' /\ sat (env_of w') ss /\
  (forall outs s ins, In (Directive outs s ins) ss -> exists res,
     solve s (map (eval_quad (env_of w')) ins) = Some res /\ map (env_of w') outs = firstn (length outs) res) /\
  Forall (fun s => defined w' (stmt_vars s)) ss.
Proof.
  induction ss as [|s r IH]; intros seen w log w' log' Hf Hk H.
  - inversion H; subst. repeat split; auto using extends_refl; [constructor|intros ? ? ? []].
  - destruct Hf as [Hs Hf]. destruct s as [q l err|outs s ins|fmt es].
    + cbn [exec_stmts] in H. destruct (is_assignee w l) as [v|] eqn:Ea.
      * destruct (evaluate_quad w q) as [x|] eqn:Eq; [|discriminate].
        apply is_assignee_spec in Ea. destruct Ea as [-> En].
        apply evaluate_quad_spec in Eq. destruct Eq as [Dq ->].
        assert (Hk' : keys_in (sput v (eval_quad (env_of w) q) w) (stmt_vars (Constraint q [(v, f1)] err) ++ seen)).
        { intros u y Hu. rewrite sget_sput in Hu. apply in_or_app.
          destruct (Z.eqb_spec u v) as [->|]; [left; simpl; apply in_or_app; right; left; auto|right; eapply Hk; eauto]. }
        destruct (IH _ _ _ _ _ Hf Hk' H) as [E1 [E2 [E3 E4]]].
        pose proof (sput_extends v (eval_quad (env_of w) q) w En) as Ew.
        assert (Ext : extends w w') by (eapply extends_trans; eauto).
        assert (Hv : sget v w' = Some (eval_quad (env_of w) q)) by (apply E1, sget_sput_eq).
        split; [auto|]. split; [|split].
        -- constructor; auto. simpl. rewrite <- (eval_quad_extends w w') by auto.
           unfold env_of at 2. rewrite Hv. ring.
        -- intros outs s ins [Hin|Hin]; [discriminate|eauto].
        -- constructor; auto. simpl. intros u Hu. apply in_app_or in Hu. destruct Hu as [Hu|[<-|[]]]; [|eauto].
           destruct (Dq u Hu) as [y Hy]. exists y. apply Ext; auto.
      * destruct (evaluate_quad w q) as [x|] eqn:Eq; [|discriminate].
        destruct (evaluate_lin w l) as [y|] eqn:El; [|discriminate].
        destruct (Feqb_spec x y) as [Exy|]; [|discriminate].
        apply evaluate_quad_spec in Eq. destruct Eq as [Dq Hx].
        apply evaluate_lin_spec in El. destruct El as [Dl Hy].
        destruct (IH _ _ _ _ _ Hf (keys_in_app _ _ _ Hk) H) as [E1 [E2 [E3 E4]]].
        split; [auto|]. split; [|split].
        -- constructor; auto. simpl. rewrite <- (eval_quad_extends w w'), <- (eval_lin_extends w w') by auto. congruence.
        -- intros outs s ins [Hin|Hin]; [discriminate|eauto].
        -- constructor; auto. simpl. intros u Hu. apply in_app_or in Hu.
           destruct Hu as [Hu|Hu]; [destruct (Dq u Hu) as [z Hz]|destruct (Dl u Hu) as [z Hz]]; exists z; apply E1; auto.
    + cbn [exec_stmts] in H. destruct (opt_list (map (evaluate_quad w) ins)) as [xs|] eqn:Ei; [|discriminate].
      destruct (solve s xs) as [res|] eqn:Es; [|discriminate].
      destruct (put_outputs w outs res) as [w1|] eqn:Ep; [|discriminate].
      apply quads_spec in Ei. destruct Ei as [Di ->].
      apply put_outputs_spec in Ep. destruct Ep as [P1 [P2 P3]]. destruct Hs as [Hnd Hs].
      assert (Ew : extends w w1).
      { intros v x Hv. rewrite P1; auto. intros Hin. destruct (Hs v Hin) as [N _]. apply N. eapply Hk; eauto. }
      assert (Hk' : keys_in w1 (stmt_vars (Directive outs s ins) ++ seen)).
      { intros v x Hv. apply in_or_app. destruct (in_dec Z.eq_dec v outs) as [Hi|Hn].
        - left; simpl; apply in_or_app; auto.
        - right. rewrite P1 in Hv by auto. eapply Hk; eauto. }
      destruct (IH _ _ _ _ _ Hf Hk' H) as [E1 [E2 [E3 E4]]].
      assert (Ext : extends w w') by (eapply extends_trans; eauto).
      split; [auto|]. split; [|split].
      * constructor; simpl; auto.
      * intros outs' s' ins' [Hin|Hin]; [|eauto]. inversion Hin; subst outs' s' ins'.
        exists res. split.
        -- rewrite <- Es. f_equal. apply map_ext_in. intros q Hq. symmetry. apply eval_quad_extends; auto.
           intros v Hv. apply Di. apply in_flat_map; eauto.
        -- rewrite <- P3 by auto. apply map_ext_in. intros v Hv. destruct (P2 v Hv) as [x Hx].
           unfold env_of. rewrite Hx, (E1 _ _ Hx). reflexivity.
      * constructor; auto. simpl. intros u Hu. apply in_app_or in Hu.
        destruct Hu as [Hu|Hu]; [destruct (Di u Hu) as [z Hz]; exists z; apply Ext; auto|].
        destruct (P2 u Hu) as [z Hz]; exists z; apply E1; auto.
    + cbn [exec_stmts] in H. destruct (opt_list (map (evaluate_lin w) es)) as [vs|] eqn:Ee; [|discriminate].
      destruct (IH _ _ _ _ _ Hf (keys_in_app _ _ _ Hk) H) as [E1 [E2 [E3 E4]]].
      apply lins_spec in Ee. destruct Ee as [De _].
      split; [auto|]. split; [|split].
      * constructor; simpl; auto.
      * intros outs s ins [Hin|Hin]; [discriminate|eauto].
      * constructor; auto. simpl. intros u Hu. destruct (De u Hu) as [z Hz]; exists z; apply E1; auto.
Qed.

(** Initial witness *)
Lemma init_fold_spec : forall args (inputs : list F) (w : witness), length args = length inputs ->
  NoDup (map pid args) ->
  let w' := fold_left (fun w pv => sput (pid (fst pv)) (snd pv) w) (combine args inputs) w in
  map (fun a => sget (pid a) w') args = map Some inputs /\
  (forall v, ~ In v (map pid args) -> sget v w' = sget v w).
Proof.
  induction args as [|a args IH]; intros [|x inputs] w Hl Hnd; simpl in *; try discriminate; auto.
  inversion Hnd as [|? ? Hni Hnd']; subst.
  destruct (IH inputs (sput (pid a) x w)) as [H1 H2]; auto. split.
  - f_equal; auto. rewrite H2 by auto. apply sget_sput_eq.
  - intros v Hv. rewrite H2 by tauto. apply sget_sput_ne. intros ->; apply Hv; auto.
Qed.

Lemma init_witness_spec : forall args (inputs : list F), length args = length inputs ->
  NoDup (vone :: map pid args) ->
  let w := init_witness args inputs in
  sget vone w = Some f1 /\ map (fun a => sget (pid a) w) args = map Some inputs /\
  keys_in w (vone :: map pid args).
Proof.
  intros args inputs Hl Hnd. inversion Hnd as [|? ? Hni Hnd']; subst. unfold init_witness.
  destruct (init_fold_spec args inputs (sput vone f1 []) Hl Hnd') as [H1 H2].
  split; [|split]; auto.
  - rewrite H2 by auto. apply sget_sput_eq.
  - intros v x Hv. destruct (in_dec Z.eq_dec v (map pid args)) as [Hi|Hn]; [right; auto|].
    rewrite H2 in Hv by auto. rewrite sget_sput in Hv. destruct (Z.eqb_spec v vone); [left; auto|discriminate].
Qed.

(** ** Completeness *)

Lemma mem_In : forall v d, mem v d = true <-> In v d.
Proof.
  intros v d. unfold mem. rewrite existsb_exists. split.
  - intros [x [H1 H2]]. apply Z.eqb_eq in H2; subst; auto.
  - intros H; exists v; split; auto. apply Z.eqb_refl.
Qed.
Lemma subset_spec : forall a d, subset a d = true <-> incl a d.
Proof.
  intros a d; unfold subset. rewrite forallb_forall. split; intros H v Hv; apply mem_In; auto.
Qed.
Lemma nodupb_spec : forall l, nodupb l = true <-> NoDup l.
Proof.
  induction l as [|x r IH]; simpl; split; intros H; try constructor; auto.
  - apply andb_prop in H. destruct H as [H1 H2]. intros Hc. apply mem_In in Hc. rewrite Hc in H1; discriminate.
  - apply IH. apply andb_prop in H; tauto.
  - inversion H; subst. apply andb_true_intro; split; [|apply IH; auto].
    destruct (mem x r) eqn:E; auto. apply mem_In in E; contradiction.
Qed.

Definition agrees (w : witness) (omega : env) : Prop := forall v x, sget v w = Some x -> x = omega v.

Lemma agrees_eval_lin : forall w omega l, agrees w omega -> defined w (lc_vars l) ->
  eval_lin (env_of w) l = eval_lin omega l.
Proof.
  intros w omega l Ha Hd. apply eval_lin_ext. intros v Hv. destruct (Hd v Hv) as [x Hx].
  unfold env_of. rewrite Hx. auto.
Qed.
Lemma agrees_eval_quad : forall w omega q, agrees w omega -> defined w (q_vars q) ->
  eval_quad (env_of w) q = eval_quad omega q.
Proof.
  intros w omega l Ha Hd. apply eval_quad_ext. intros v Hv. destruct (Hd v Hv) as [x Hx].
  unfold env_of. rewrite Hx. auto.
Qed.

Lemma sput_agrees : forall w omega v, agrees w omega -> agrees (sput v (omega v) w) omega.
Proof.
  intros w omega v H u x Hu. rewrite sget_sput in Hu. destruct (Z.eqb_spec u v) as [->|]; [congruence|auto].
Qed.

Lemma put_outputs_agrees : forall outs w omega, agrees w omega ->
  exists w', put_outputs w outs (map omega outs) = Some w' /\ agrees w' omega.
Proof.
  induction outs as [|o r IH]; intros w omega H; simpl; [eauto|].
  apply IH, sput_agrees; auto.
Qed.

Lemma exec_complete : forall ss d d' w log omega,
  intro_all d ss = Some d' -> (forall v, In v d <-> exists x, sget v w = Some x) ->
  agrees w omega -> sat omega ss -> follows solve omega ss ->
  exists w' log', exec_stmts solve w log ss = Done w' log' /\ agrees w' omega /\
    (forall v, In v d' <-> exists x, sget v w' = Some x) /\
    log' = log ++ logs_of omega ss.
Proof.
  induction ss as [|s r IH]; intros d d' w log omega Hi Hd Ha Hs Hfo.
  - inversion Hi; subst. exists w, log. rewrite app_nil_r. auto.
  - cbn [intro_all] in Hi. destruct (intro d s) as [d1|] eqn:E1; [|discriminate].
    inversion Hs as [|? ? Hs1 Hs2]; subst. inversion Hfo as [|? ? Hf1 Hf2]; subst.
    assert (Hdef : forall vs, incl vs d -> defined w vs) by (intros vs H v Hv; apply Hd; auto).
    destruct s as [q l err|outs s ins|fmt es]; cbn [intro] in E1.
    + destruct (subset (q_vars q) d) eqn:Eq; [|discriminate]. apply subset_spec in Eq.
      cbn [exec_stmts]. rewrite evaluate_quad_defined by auto.
      destruct (subset (lc_vars l) d) eqn:El.
      * apply subset_spec in El. inversion E1; subst d1.
        destruct (is_assignee w l) as [v|] eqn:Ea.
        { apply is_assignee_spec in Ea. destruct Ea as [-> En]. exfalso.
          destruct (proj1 (Hd v)) as [x Hx]; [apply El; left; auto|congruence]. }
        rewrite evaluate_lin_defined by auto.
        rewrite (agrees_eval_quad w omega), (agrees_eval_lin w omega) by auto.
        simpl in Hs1. rewrite Hs1, Feqb_refl. eapply IH; eauto.
      * destruct l as [|[v c] [|]]; try discriminate.
        destruct (Feqb_spec c f1) as [->|]; [|discriminate]. inversion E1; subst d1.
        assert (Hn : ~ In v d).
        { intros Hc. assert (subset (lc_vars [(v, f1)]) d = true); [|congruence].
          apply subset_spec. intros u [<-|[]]; auto. }
        assert (En : sget v w = None).
        { destruct (sget v w) eqn:E; auto. exfalso. apply Hn, Hd; eauto. }
        assert (Ea : is_assignee w [(v, f1)] = Some v) by (simpl; rewrite Feqb_refl, En; auto).
        rewrite Ea.
        rewrite (agrees_eval_quad w omega) by auto.
        assert (Ev : eval_quad omega q = omega v) by (simpl in Hs1; rewrite Hs1; ring).
        rewrite Ev. destruct (IH (v :: d) d' (sput v (omega v) w) log omega) as [w' [log' H]]; auto.
        -- intros u. rewrite sget_sput. destruct (Z.eqb_spec u v) as [->|Hne].
           ++ split; [eauto|left; auto].
           ++ rewrite <- Hd. simpl. split; [intros [H|H]; [congruence|auto]|auto].
        -- apply sput_agrees; auto.
        -- eauto.
    + destruct (subset _ d && nodupb outs && _ && _ && _) eqn:Ec; [|discriminate].
      inversion E1; subst d1. rewrite !andb_true_iff in Ec. destruct Ec as [[[[Ec1 Ec2] Ec3] Ec4] Ec5].
      apply subset_spec in Ec1. cbn [exec_stmts].
      rewrite (opt_list_all _ _ _ (eval_quad omega)).
      2:{ intros q Hq. assert (Dq : defined w (q_vars q)) by (apply Hdef; intros v Hv; apply Ec1, in_flat_map; eauto).
          rewrite evaluate_quad_defined, (agrees_eval_quad w omega) by auto. reflexivity. }
      simpl in Hf1. rewrite Hf1.
      destruct (put_outputs_agrees outs w omega Ha) as [w1 [Hp Hag]]. rewrite Hp.
      apply put_outputs_spec in Hp. destruct Hp as [P1 [P2 _]].
      destruct (IH (outs ++ d) d' w1 log omega) as [w' [log' H]]; auto.
      * intros v. rewrite in_app_iff. split.
        -- intros [H|H]; [auto|]. destruct (in_dec Z.eq_dec v outs); [auto|]. rewrite P1 by auto. apply Hd; auto.
        -- intros [x Hx]. destruct (in_dec Z.eq_dec v outs); [auto|]. right. apply Hd. rewrite P1 in Hx by auto. eauto.
      * eauto.
    + destruct (subset _ d) eqn:Ec; [|discriminate]. inversion E1; subst d1. apply subset_spec in Ec.
      cbn [exec_stmts]. rewrite (opt_list_all _ _ _ (eval_lin omega)).
      2:{ intros q Hq. assert (Dq : defined w (lc_vars q)) by (apply Hdef; intros v Hv; apply Ec, in_flat_map; eauto).
          rewrite evaluate_lin_defined, (agrees_eval_lin w omega) by auto. reflexivity. }
      destruct (IH d d' w (log ++ [(fmt, map (eval_lin omega) es)]) omega) as [w' [log' [H1 [H2 [H3 H4]]]]]; auto.
      exists w', log'. repeat split; auto; try apply H3. rewrite H4, <- app_assoc. reflexivity.
Qed.

(** Unsatisfied is only reported for a constraint that is false of the values computed so far. *)
Lemma exec_unsat : forall ss w log e, exec_stmts solve w log ss = Unsatisfied e ->
  exists pre q l post w' log', ss = pre ++ Constraint q l e :: post /\
    exec_stmts solve w log pre = Done w' log' /\
    defined w' (q_vars q ++ lc_vars l) /\ eval_quad (env_of w') q <> eval_lin (env_of w') l.
Proof.
  induction ss as [|s r IH]; intros w log e H; [discriminate|].
  assert (Hstep : forall w1 log1, exec_stmts solve w1 log1 r = Unsatisfied e ->
    (forall pre, exec_stmts solve w log (s :: pre) = exec_stmts solve w1 log1 pre) ->
    exists pre q l post w' log', s :: r = pre ++ Constraint q l e :: post /\
    exec_stmts solve w log pre = Done w' log' /\
    defined w' (q_vars q ++ lc_vars l) /\ eval_quad (env_of w') q <> eval_lin (env_of w') l).
  { intros w1 log1 Hu Hpre. destruct (IH _ _ _ Hu) as [pre [q [l [post [w' [log' [E1 [E2 E3]]]]]]]].
    exists (s :: pre), q, l, post, w', log'. split; [simpl; congruence|]. split; [rewrite Hpre; auto|auto]. }
  destruct s as [q l err|outs s ins|fmt es]; cbn [exec_stmts] in H.
  - destruct (is_assignee w l) as [v|] eqn:Ea.
    + destruct (evaluate_quad w q) as [x|] eqn:Eq; [|discriminate].
      apply (Hstep _ _ H). intros pre. cbn [exec_stmts]. rewrite Ea, Eq. reflexivity.
    + destruct (evaluate_quad w q) as [x|] eqn:Eq; [|discriminate].
      destruct (evaluate_lin w l) as [y|] eqn:El; [|discriminate].
      destruct (Feqb_spec x y) as [Exy|Hne].
      * apply (Hstep _ _ H). intros pre. cbn [exec_stmts]. rewrite Ea, Eq, El, Exy, Feqb_refl. reflexivity.
      * inversion H; subst e. exists [], q, l, r, w, log. simpl.
        apply evaluate_quad_spec in Eq. apply evaluate_lin_spec in El. destruct Eq as [D1 ->]. destruct El as [D2 ->].
        repeat split; auto. intros v Hv. apply in_app_or in Hv. destruct Hv; auto.
  - destruct (opt_list (map (evaluate_quad w) ins)) as [xs|] eqn:Ei; [|discriminate].
    destruct (solve s xs) as [res|] eqn:Es; [|discriminate].
    destruct (put_outputs w outs res) as [w1|] eqn:Ep; [|discriminate].
    apply (Hstep _ _ H). intros pre. cbn [exec_stmts]. rewrite Ei, Es, Ep. reflexivity.
  - destruct (opt_list (map (evaluate_lin w) es)) as [vs|] eqn:Ee; [|discriminate].
    apply (Hstep _ _ H). intros pre. cbn [exec_stmts]. rewrite Ee. reflexivity.
Qed.

(** def_before_use implies fresh outputs *)
Lemma intro_mono : forall s d d', intro d s = Some d' -> incl d d' /\ incl (stmt_vars s) d'.
Proof.
  intros s d d' H. destruct s as [q l err|outs s ins|fmt es]; cbn [intro stmt_vars] in *.
  - destruct (subset (q_vars q) d) eqn:Eq; [|discriminate]. apply subset_spec in Eq.
    destruct (subset (lc_vars l) d) eqn:El.
    + apply subset_spec in El. inversion H; subst. split; [apply incl_refl|apply incl_app; auto].
    + destruct l as [|[v c] [|]]; try discriminate. destruct (Feqb c f1); [|discriminate]. inversion H; subst.
      split; [apply incl_tl, incl_refl|]. apply incl_app; [apply incl_tl; auto|].
      intros u [<-|[]]; left; auto.
  - destruct (subset _ d && _ && _ && _ && _) eqn:Ec; [|discriminate]. inversion H; subst.
    rewrite !andb_true_iff in Ec. destruct Ec as [[[[Ec1 Ec2] Ec3] Ec4] Ec5]. apply subset_spec in Ec1.
    split; [apply incl_appr, incl_refl|]. apply incl_app; [apply incl_appr; auto|apply incl_appl, incl_refl].
  - destruct (subset _ d) eqn:Ec; [|discriminate]. apply subset_spec in Ec. inversion H; subst. split; [apply incl_refl|auto].
Qed.

Lemma intro_fresh : forall ss d d' seen, intro_all d ss = Some d' -> incl seen d -> fresh_outs seen ss.
Proof.
  induction ss as [|s r IH]; intros d d' seen H Hs; simpl; auto.
  cbn [intro_all] in H. destruct (intro d s) as [d1|] eqn:E; [|discriminate].
  pose proof (intro_mono _ _ _ E) as [M1 M2]. split.
  - destruct s as [q l err|outs s ins|fmt es]; auto. cbn [intro] in E.
    destruct (subset _ d && _ && _ && _ && _) eqn:Ec; [|discriminate].
    rewrite !andb_true_iff in Ec. destruct Ec as [[[[Ec1 Ec2] Ec3] Ec4] Ec5].
    split; [apply nodupb_spec; auto|]. intros o Ho. rewrite forallb_forall in Ec3. specialize (Ec3 o Ho).
    apply subset_spec in Ec1.
    apply andb_prop in Ec3. destruct Ec3 as [Ec3 _].
    assert (~ In o d) by (intros Hc; apply mem_In in Hc; rewrite Hc in Ec3; discriminate).
    split; intros Hc; apply H0; auto.
  - eapply IH; eauto. apply incl_app; [auto|]. eapply incl_tran; eauto.
Qed.
End InterpProofs.
