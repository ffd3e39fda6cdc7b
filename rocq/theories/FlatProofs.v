(** Proofs about flat programs: lowering preserves satisfaction and well-formedness. *)
From Coq Require Import ZArith List Bool Lia Field.
From Verif Require Import PField SMap IR IRSpec Wf IRProofs Interp InterpProofs Flat OptimizerProofs OptExtra.
Import ListNotations.
Open Scope Z_scope.

Section FlatProofs.
Context {PF : PrimeField}.
Add Field Ffp : F_field_th.

Lemma fexp_eqb_eq : forall a b, fexp_eqb a b = true -> a = b.
Proof.
  induction a as [c|v|a1 IH1 a2 IH2|a1 IH1 a2 IH2|a1 IH1 a2 IH2]; intros [d|u|b1 b2|b1 b2|b1 b2] H;
    cbn [fexp_eqb] in H; try discriminate.
  - f_equal. apply Feqb_eq; auto.
  - f_equal. apply Z.eqb_eq; auto.
  - apply andb_prop in H as [H1 H2]. f_equal; auto.
  - apply andb_prop in H as [H1 H2]. f_equal; auto.
  - apply andb_prop in H as [H1 H2]. f_equal; auto.
Qed.
Lemma fexp_eqb_refl : forall a, fexp_eqb a a = true.
Proof.
  induction a; cbn [fexp_eqb]; rewrite ?IHa1, ?IHa2; auto; [apply Feqb_eq; auto|apply Z.eqb_refl].
Qed.

Lemma eval_lin_app' : forall w a b, eval_lin w (a ++ b) = fadd (eval_lin w a) (eval_lin w b).
Proof. induction a as [|[v c] a IH]; intros b; cbn [app eval_lin]; [ring|rewrite IH; ring]. Qed.
Lemma eval_lin_neg : forall w b, eval_lin w (map (fun t => (fst t, fsub f0 (snd t))) b) = fsub f0 (eval_lin w b).
Proof. induction b as [|[v c] b IH]; cbn [map eval_lin fst snd]; [ring|rewrite IH; ring]. Qed.

Lemma lc_of_flat_eval : forall w e l, w vone = f1 -> lc_of_flat e = Some l -> eval_lin w l = feval w e.
Proof.
  intros w e l H1. revert l.
  induction e as [c|v|a IHa b IHb|a IHa b IHb|a IHa b IHb]; intros l H; cbn [lc_of_flat feval] in *.
  - destruct (Feqb c f0) eqn:E; injection H as <-; unfold lc_summand; cbn [eval_lin].
    + apply Feqb_eq in E. auto.
    + rewrite H1; ring.
  - injection H as <-. cbn [eval_lin]. ring.
  - destruct (lc_of_flat a) as [x|], (lc_of_flat b) as [y|]; try discriminate. injection H as <-.
    unfold lc_add. rewrite eval_lin_app', (IHa x), (IHb y); auto.
  - destruct (lc_of_flat a) as [x|], (lc_of_flat b) as [y|]; try discriminate. injection H as <-.
    unfold lc_sub. rewrite eval_lin_app', eval_lin_neg, (IHa x), (IHb y); auto. ring.
  - destruct a, b; try discriminate; injection H as <-; unfold lc_summand; cbn [eval_lin feval]; rewrite ?H1; ring.
Qed.

Lemma lc_of_flat_linear : forall e, (exists l, lc_of_flat e = Some l) <-> is_linear e = true.
Proof.
  induction e as [c|v|a IHa b IHb|a IHa b IHb|a IHa b IHb]; cbn [lc_of_flat is_linear].
  - split; eauto.
  - split; eauto.
  - rewrite andb_true_iff, <- IHa, <- IHb. split.
    + intros [l H]. destruct (lc_of_flat a), (lc_of_flat b); try discriminate; eauto.
    + intros [[x ->] [y ->]]; eauto.
  - rewrite andb_true_iff, <- IHa, <- IHb. split.
    + intros [l H]. destruct (lc_of_flat a), (lc_of_flat b); try discriminate; eauto.
    + intros [[x ->] [y ->]]; eauto.
  - destruct a, b; split; try (intros [l H]; discriminate); eauto; discriminate.
Qed.

Lemma quad_of_flat_eval : forall w e q, w vone = f1 -> quad_of_flat e = Some q -> eval_quad w q = feval w e.
Proof.
  intros w e q H1 H.
  assert (Hl : forall e l, lc_of_flat e = Some l -> eval_quad w (q_of_lc l) = feval w e).
  { intros e0 l Hl. unfold eval_quad, q_of_lc, lc_one, lc_summand; cbn [qleft qright eval_lin].
    rewrite (lc_of_flat_eval w e0 l H1 Hl), H1. ring. }
  destruct e; unfold quad_of_flat in H;
    try (destruct (lc_of_flat _) eqn:E; try discriminate; injection H as <-; apply Hl; exact E).
  destruct (lc_of_flat e1) as [x|] eqn:E1, (lc_of_flat e2) as [y|] eqn:E2; try discriminate. injection H as <-.
  unfold eval_quad; cbn [qleft qright feval].
  rewrite (lc_of_flat_eval w e1 x H1 E1), (lc_of_flat_eval w e2 y H1 E2). auto.
Qed.
Lemma qin_of_flat_eval : forall w e q, w vone = f1 -> qin_of_flat e = Some q -> eval_quad w q = feval w e.
Proof.
  intros w e q H1 H. unfold qin_of_flat in H. destruct (is_linear e) eqn:El.
  - destruct (lc_of_flat e) as [l|] eqn:E; try discriminate. injection H as <-.
    unfold eval_quad, q_of_lc, lc_one, lc_summand; cbn [qleft qright eval_lin].
    rewrite (lc_of_flat_eval w e l H1 E), H1. ring.
  - destruct e; try discriminate. apply (quad_of_flat_eval w _ q H1 H).
Qed.

(** Lowering accepts exactly the rank-one shapes. *)
Definition rank1 (e : fexp) : bool := is_linear e || match e with XMul a b => is_linear a && is_linear b | _ => false end.
Definition shape_ok (s : fstmt) : bool :=
  match s with
  | XDef _ e _ => match e with XMul a b => is_linear a && is_linear b | _ => is_linear e end
  | XCond l q _ => is_linear l && match q with XMul a b => is_linear a && is_linear b | _ => is_linear q end
  | XDir _ _ ins => forallb rank1 ins
  | XLog _ es => forallb is_linear es
  | XNote _ => true
  end.

Lemma opt_list_some : forall {A B} (f : A -> option B) l, (exists r, opt_list (map f l) = Some r) <-> Forall (fun x => exists y, f x = Some y) l.
Proof.
  induction l as [|x r IH]; cbn [map opt_list].
  - split; eauto.
  - split.
    + intros [z H]. destruct (f x) eqn:E; try discriminate.
      destruct (opt_list (map f r)) eqn:E2; try discriminate.
      constructor; [eauto|]. apply IH; eauto.
    + intros H. inversion H as [|? ? [y Hy] Hr]; subst. rewrite Hy. apply IH in Hr. destruct Hr as [z ->]. eauto.
Qed.
Lemma opt_list_map2 : forall {A B} (f : A -> option B) l r, opt_list (map f l) = Some r -> Forall2 (fun x y => f x = Some y) l r.
Proof.
  induction l as [|x l IH]; intros r H; cbn [map opt_list] in H.
  - injection H as <-. constructor.
  - destruct (f x) eqn:E; try discriminate. destruct (opt_list (map f l)) eqn:E2; try discriminate.
    injection H as <-. constructor; auto.
Qed.

Lemma f2_length : forall {A B} {R : A -> B -> Prop} {l r}, Forall2 R l r -> length l = length r.
Proof. intros A B R l r H. induction H; cbn [length]; auto. Qed.

Lemma quad_of_flat_shape : forall e, (exists q, quad_of_flat e = Some q) <->
  match e with XMul a b => is_linear a && is_linear b | _ => is_linear e end = true.
Proof.
  intros e. destruct e; unfold quad_of_flat.
  1-4: rewrite <- lc_of_flat_linear; split; intros [l H]; [destruct (lc_of_flat _); [eauto|discriminate] | rewrite H; eauto].
  rewrite andb_true_iff, <- !lc_of_flat_linear. split.
  - intros [q H]. destruct (lc_of_flat e1), (lc_of_flat e2); try discriminate; eauto.
  - intros [[x ->] [y ->]]; eauto.
Qed.
Lemma mul_rank1 : forall a b, is_linear (XMul a b) = true -> is_linear a && is_linear b = true.
Proof. intros a b H. destruct a, b; try discriminate; reflexivity. Qed.
Lemma qin_of_flat_shape : forall e, (exists q, qin_of_flat e = Some q) <-> rank1 e = true.
Proof.
  intros e. unfold qin_of_flat, rank1. destruct (is_linear e) eqn:El.
  - apply lc_of_flat_linear in El. destruct El as [l ->]. cbn [orb]. split; eauto.
  - cbn [orb]. destruct e; try (split; [intros [q H]; discriminate | discriminate]).
    apply (quad_of_flat_shape (XMul e1 e2)).
Qed.

Lemma lower_stmt_shape : forall s, (exists s', lower_stmt s = Some s') <-> shape_ok s = true.
Proof.
  intros [v e err|l q err|outs sv ins|fmt es|u]; cbn [lower_stmt shape_ok].
  - rewrite <- quad_of_flat_shape. split; intros [x H]; [destruct (quad_of_flat e); [eauto|discriminate]|rewrite H; eauto].
  - rewrite andb_true_iff, <- quad_of_flat_shape, <- lc_of_flat_linear. split.
    + intros [x H]. destruct (quad_of_flat q), (lc_of_flat l); try discriminate; eauto.
    + intros [[x ->] [y ->]]; eauto.
  - rewrite forallb_forall.
    assert (E : (exists r, opt_list (map qin_of_flat ins) = Some r) <-> (forall x, In x ins -> rank1 x = true)).
    { rewrite opt_list_some, Forall_forall. split; intros H x Hx; apply qin_of_flat_shape; auto. }
    rewrite <- E. split; intros [x H]; [destruct (opt_list _); [eauto|discriminate]|rewrite H; eauto].
  - rewrite forallb_forall.
    assert (E : (exists r, opt_list (map lc_of_flat es) = Some r) <-> (forall x, In x es -> is_linear x = true)).
    { rewrite opt_list_some, Forall_forall. split; intros H x Hx; apply lc_of_flat_linear; auto. }
    rewrite <- E. split; intros [x H]; [destruct (opt_list _); [eauto|discriminate]|rewrite H; eauto].
  - split; eauto.
Qed.
Lemma lower_shape : forall ss, (exists out, lower ss = Some out) <-> forallb shape_ok ss = true.
Proof.
  induction ss as [|s r IH]; cbn [lower forallb]; [split; eauto|].
  rewrite andb_true_iff, <- IH, <- lower_stmt_shape. split.
  - intros [x H]. destruct (lower_stmt s), (lower r); try discriminate; eauto.
  - intros [[x ->] [y ->]]; eauto.
Qed.

(** Satisfaction is preserved, statement by statement. *)
Lemma lower_stmt_sat : forall w s out, w vone = f1 -> lower_stmt s = Some out -> (sat w out <-> fsat w s).
Proof.
  intros w s out H1 H. unfold sat. destruct s as [v e err|l q err|outs sv ins|fmt es|u]; cbn [lower_stmt fsat] in *.
  - destruct (quad_of_flat e) as [q|] eqn:E; try discriminate. injection H as <-.
    rewrite Forall_cons_iff. cbn [sat_stmt eval_lin]. rewrite (quad_of_flat_eval w e q H1 E).
    replace (fadd (fmul f1 (w v)) f0) with (w v) by ring.
    split; [intros [Hx _]; auto|intros Hx; split; [auto|constructor]].
  - destruct (quad_of_flat q) as [q'|] eqn:E; try discriminate.
    destruct (lc_of_flat l) as [l'|] eqn:E2; try discriminate. injection H as <-.
    rewrite Forall_cons_iff. cbn [sat_stmt]. rewrite (quad_of_flat_eval w q q' H1 E), (lc_of_flat_eval w l l' H1 E2).
    split; [intros [Hx _]; auto|intros Hx; split; [auto|constructor]].
  - destruct (opt_list (map qin_of_flat ins)); try discriminate. injection H as <-.
    split; [auto|intros _; repeat constructor].
  - destruct (opt_list (map lc_of_flat es)); try discriminate. injection H as <-.
    split; [auto|intros _; repeat constructor].
  - injection H as <-. split; auto.
Qed.
Lemma lower_sat : forall w ss out, w vone = f1 -> lower ss = Some out -> (sat w out <-> Forall (fsat w) ss).
Proof.
  intros w ss. induction ss as [|s r IH]; intros out H1 H; cbn [lower] in H.
  - injection H as <-. split; constructor.
  - destruct (lower_stmt s) as [a|] eqn:E; try discriminate. destruct (lower r) as [b|] eqn:E2; try discriminate.
    injection H as <-. unfold sat in *. rewrite Forall_app, Forall_cons_iff, (IH b H1 eq_refl).
    pose proof (lower_stmt_sat w s a H1 E) as Hs. unfold sat in Hs. tauto.
Qed.

(** Directive inputs and logged expressions keep their values. *)
Lemma map_ext_forall2 : forall {A B C} (f : A -> option B) (g : A -> C) (h : B -> C) l r,
  Forall2 (fun x y => f x = Some y) l r -> (forall x y, f x = Some y -> h y = g x) -> map h r = map g l.
Proof. intros. induction H; cbn [map]; auto. rewrite (H0 _ _ H), IHForall2. auto. Qed.

Lemma lower_follows : forall solve w ss out, w vone = f1 -> lower ss = Some out -> Forall (hon solve w) ss ->
  follows solve w out.
Proof.
  intros solve w ss. induction ss as [|s r IH]; intros out H1 H Hh; cbn [lower] in H.
  - injection H as <-. constructor.
  - destruct (lower_stmt s) as [a|] eqn:E; try discriminate. destruct (lower r) as [b|] eqn:E2; try discriminate.
    injection H as <-. inversion Hh as [|? ? Hs Hr]; subst. apply Forall_app. split; [|apply IH; auto].
    destruct s as [v e err|l q err|outs sv ins|fmt es|u]; cbn [lower_stmt] in E.
    + destruct (quad_of_flat e); try discriminate. injection E as <-. repeat constructor.
    + destruct (quad_of_flat q), (lc_of_flat l); try discriminate. injection E as <-. repeat constructor.
    + destruct (opt_list (map qin_of_flat ins)) as [is|] eqn:Ei; try discriminate. injection E as <-.
      constructor; [|constructor]. cbn [follows_stmt]. cbn [hon] in Hs. rewrite <- Hs. f_equal.
      apply opt_list_map2 in Ei. apply (map_ext_forall2 _ _ _ _ _ Ei).
      intros x y Hxy. apply qin_of_flat_eval; auto.
    + destruct (opt_list (map lc_of_flat es)); try discriminate. injection E as <-. repeat constructor.
    + injection E as <-. constructor.
Qed.

Definition flogs_of (w : env) (ss : list fstmt) : list (Z * list F) :=
  flat_map (fun s => match s with XLog f es => [(f, map (feval w) es)] | _ => [] end) ss.
Lemma lower_logs : forall w ss out, w vone = f1 -> lower ss = Some out -> logs_of w out = flogs_of w ss.
Proof.
  intros w ss. induction ss as [|s r IH]; intros out H1 H; cbn [lower] in H.
  - injection H as <-. reflexivity.
  - destruct (lower_stmt s) as [a|] eqn:E; try discriminate. destruct (lower r) as [b|] eqn:E2; try discriminate.
    injection H as <-. unfold logs_of. rewrite flat_map_app. fold (logs_of w b). rewrite (IH b H1 eq_refl).
    cbn [flogs_of flat_map]. fold (flogs_of w r). f_equal.
    destruct s as [v e err|l q err|outs sv ins|fmt es|u]; cbn [lower_stmt] in E.
    + destruct (quad_of_flat e); try discriminate. injection E as <-. reflexivity.
    + destruct (quad_of_flat q), (lc_of_flat l); try discriminate. injection E as <-. reflexivity.
    + destruct (opt_list (map qin_of_flat ins)) as [is|] eqn:Ei; try discriminate. injection E as <-. reflexivity.
    + destruct (opt_list (map lc_of_flat es)) as [ls|] eqn:Ei; try discriminate. injection E as <-.
      cbn [flat_map app]. f_equal. f_equal. apply opt_list_map2 in Ei. apply (map_ext_forall2 _ _ _ _ _ Ei).
      intros x y Hxy. apply lc_of_flat_eval; auto.
    + injection E as <-. reflexivity.
Qed.

(** ** Well-formedness *)
Lemma lc_of_flat_vars : forall e l, lc_of_flat e = Some l -> incl (lc_vars l) (vone :: fvars e).
Proof.
  induction e as [c|v|a IHa b IHb|a IHa b IHb|a IHa b IHb]; intros l H; cbn [lc_of_flat fvars] in *.
  - destruct (Feqb c f0); injection H as <-; intros x Hx; cbn in *; tauto.
  - injection H as <-. intros x Hx; cbn in *; tauto.
  - destruct (lc_of_flat a) as [x|], (lc_of_flat b) as [y|]; try discriminate. injection H as <-.
    unfold lc_vars, lc_add. rewrite map_app. intros v Hv. apply in_app_or in Hv.
    destruct Hv as [Hv|Hv]; [specialize (IHa x eq_refl v Hv)|specialize (IHb y eq_refl v Hv)];
      cbn [In] in *; rewrite in_app_iff; tauto.
  - destruct (lc_of_flat a) as [x|], (lc_of_flat b) as [y|]; try discriminate. injection H as <-.
    unfold lc_vars, lc_sub. rewrite map_app, map_map. cbn [fst]. intros v Hv. apply in_app_or in Hv.
    destruct Hv as [Hv|Hv]; [specialize (IHa x eq_refl v Hv)|specialize (IHb y eq_refl v Hv)];
      cbn [In] in *; rewrite in_app_iff; tauto.
  - destruct a, b; try discriminate; injection H as <-; intros x Hx; cbn in *; tauto.
Qed.
Lemma q_of_lc_vars : forall l, q_vars (q_of_lc l) = vone :: lc_vars l.
Proof. reflexivity. Qed.
Lemma quad_of_flat_vars : forall e q, quad_of_flat e = Some q -> incl (q_vars q) (vone :: fvars e).
Proof.
  intros e q H.
  assert (Hl : forall e l, lc_of_flat e = Some l -> incl (q_vars (q_of_lc l)) (vone :: fvars e)).
  { intros e0 l Hl. rewrite q_of_lc_vars. intros v [<-|Hv]; [left; auto|]. exact (lc_of_flat_vars e0 l Hl v Hv). }
  destruct e; unfold quad_of_flat in H;
    try (destruct (lc_of_flat _) eqn:E; try discriminate; injection H as <-; apply Hl; exact E).
  destruct (lc_of_flat e1) as [x|] eqn:E1, (lc_of_flat e2) as [y|] eqn:E2; try discriminate. injection H as <-.
  unfold q_vars; cbn [qleft qright fvars]. intros v Hv. apply in_app_or in Hv.
  destruct Hv as [Hv|Hv]; [apply (lc_of_flat_vars _ _ E1) in Hv|apply (lc_of_flat_vars _ _ E2) in Hv];
    cbn [In] in *; rewrite in_app_iff; tauto.
Qed.
Lemma qin_of_flat_vars : forall e q, qin_of_flat e = Some q -> incl (q_vars q) (vone :: fvars e).
Proof.
  intros e q H. unfold qin_of_flat in H. destruct (is_linear e).
  - destruct (lc_of_flat e) as [l|] eqn:E; try discriminate. injection H as <-.
    rewrite q_of_lc_vars. intros v [<-|Hv]; [left; auto|]. exact (lc_of_flat_vars e l E v Hv).
  - destruct e; try discriminate. exact (quad_of_flat_vars _ q H).
Qed.

Lemma subset_incl : forall a d, subset a d = true <-> incl a d.
Proof.
  intros a d. unfold subset. rewrite forallb_forall. unfold incl. split; intros H x Hx; apply mem_In; auto.
Qed.
Lemma subset_via : forall a b d, incl a (vone :: b) -> In vone d -> subset b d = true -> subset a d = true.
Proof.
  intros a b d Ha H1 Hb. apply subset_incl. apply subset_incl in Hb. intros x Hx.
  destruct (Ha x Hx) as [<-|Hx']; auto.
Qed.
Lemma forall2_vars : forall {B} (f : fexp -> option B) (vars : B -> list var) ins is,
  Forall2 (fun x y => f x = Some y) ins is -> (forall x y, f x = Some y -> incl (vars y) (vone :: fvars x)) ->
  incl (flat_map vars is) (vone :: flat_map fvars ins).
Proof.
  intros B f vars ins is H Hf. induction H as [|x y ins is Hxy H IH]; cbn [flat_map]; [intros v []|].
  intros v Hv. apply in_app_or in Hv. destruct Hv as [Hv|Hv].
  - apply (Hf x y Hxy) in Hv. cbn [In] in *. rewrite in_app_iff. tauto.
  - apply IH in Hv. cbn [In] in *. rewrite in_app_iff. tauto.
Qed.

(** The flat notion implies the R1CS one (up to variables already known being listed twice). *)
Lemma intro_mono : forall d d' s o, incl d d' -> incl d' d -> intro d s = Some o ->
  exists o', intro d' s = Some o' /\ incl o o' /\ incl o' o.
Proof.
  intros d d' s o Hd Hd' H.
  assert (Hs : forall a, subset a d = subset a d').
  { intros a. destruct (subset a d) eqn:E.
    - symmetry. apply subset_incl. apply subset_incl in E. intros x Hx; auto.
    - destruct (subset a d') eqn:E2; auto. apply subset_incl in E2. rewrite <- E. apply subset_incl. intros x Hx; auto. }
  assert (Hm : forall v, mem v d = mem v d').
  { intros v. destruct (mem v d) eqn:E.
    - symmetry. apply mem_In. apply mem_In in E; auto.
    - destruct (mem v d') eqn:E2; auto. apply mem_In in E2. rewrite <- E. apply mem_In. auto. }
  destruct s as [q l err|outs sv ins|fmt es]; cbn [intro] in *.
  - rewrite <- !Hs. destruct (subset (q_vars q) d); [|discriminate]. destruct (subset (lc_vars l) d).
    + injection H as <-. eauto.
    + destruct l as [|[v c] [|]]; try discriminate. destruct (Feqb c f1); try discriminate. injection H as <-.
      eexists; split; [reflexivity|]. split; intros x [<-|Hx]; cbn; auto.
  - rewrite <- Hs.
    assert (Hf : forallb (fun o => negb (mem o d') && negb (is_output o)) outs = forallb (fun o => negb (mem o d) && negb (is_output o)) outs).
    { clear H. induction outs as [|x r IH]; cbn [forallb]; auto. rewrite Hm, IH. auto. }
    rewrite Hf. match goal with H : (if ?c then _ else _) = _ |- _ => destruct c end; [|discriminate].
    injection H as <-. eexists; split; [reflexivity|].
    split; intros x Hx; apply in_app_or in Hx; apply in_or_app; destruct Hx; auto.
  - rewrite <- Hs. destruct (subset (flat_map lc_vars es) d); [|discriminate]. injection H as <-. eauto.
Qed.
Lemma intro_all_mono : forall ss d d' o, incl d d' -> incl d' d -> intro_all d ss = Some o ->
  exists o', intro_all d' ss = Some o' /\ incl o o' /\ incl o' o.
Proof.
  induction ss as [|s r IH]; intros d d' o Hd Hd' H; cbn [intro_all] in *.
  - injection H as <-. eauto.
  - destruct (intro d s) as [d1|] eqn:E; [|discriminate].
    destruct (intro_mono d d' s d1 Hd Hd' E) as [d2 [-> [Ha Hb]]]. apply (IH d1 d2 o Ha Hb H).
Qed.
Lemma intro_all_app : forall a b d, intro_all d (a ++ b) =
  match intro_all d a with Some d1 => intro_all d1 b | None => None end.
Proof. induction a as [|s r IH]; intros b d; cbn [app intro_all]; auto. destruct (intro d s); auto. Qed.

Lemma lower_intro : forall ss d o out, In vone d -> fintro_all d ss = Some o -> lower ss = Some out ->
  exists o', intro_all d out = Some o' /\ incl o o' /\ incl o' o.
Proof.
  induction ss as [|s r IH]; intros d o out H1 Hi H; cbn [lower fintro_all] in *.
  - injection H as <-. injection Hi as <-. eexists; split; [reflexivity|]. split; apply incl_refl.
  - destruct (lower_stmt s) as [a|] eqn:E; try discriminate. destruct (lower r) as [b|] eqn:E2; try discriminate.
    injection H as <-. destruct (fintro d s) as [d1|] eqn:Ed; try discriminate.
    rewrite intro_all_app.
    assert (Hs : exists d2, intro_all d a = Some d2 /\ incl d1 d2 /\ incl d2 d1 /\ In vone d1).
    { destruct s as [v e err|l q err|outs sv ins|fmt es|u]; cbn [lower_stmt fintro] in *.
      - destruct (subset (fvars e) d) eqn:Es; [|discriminate]. destruct (mem v d) eqn:Em; [discriminate|].
        injection Ed as <-. destruct (quad_of_flat e) as [q|] eqn:Eq; try discriminate. injection E as <-.
        cbn [intro_all intro]. rewrite (subset_via _ _ _ (quad_of_flat_vars _ _ Eq) H1 Es).
        cbn [lc_vars map fst]. destruct (subset [v] d) eqn:Ev.
        + apply subset_incl in Ev. specialize (Ev v (or_introl eq_refl)).
          eexists; split; [reflexivity|]. split; [|split]; [intros x [<-|Hx]; auto|intros x Hx; right; auto|right; auto].
        + assert (Ef : Feqb f1 f1 = true) by (apply Feqb_eq; auto). rewrite Ef.
          eexists; split; [reflexivity|]. split; [|split]; [apply incl_refl|apply incl_refl|right; auto].
      - destruct (subset (fvars l ++ fvars q) d) eqn:Es; [|discriminate]. injection Ed as <-.
        destruct (quad_of_flat q) as [q'|] eqn:Eq; try discriminate.
        destruct (lc_of_flat l) as [l'|] eqn:El; try discriminate. injection E as <-.
        apply subset_incl in Es. cbn [intro_all intro].
        rewrite (subset_via (q_vars q') (fvars q) d (quad_of_flat_vars _ _ Eq) H1).
        2:{ apply subset_incl. intros x Hx. apply Es, in_or_app; auto. }
        rewrite (subset_via (lc_vars l') (fvars l) d (lc_of_flat_vars _ _ El) H1).
        2:{ apply subset_incl. intros x Hx. apply Es, in_or_app; auto. }
        eexists; split; [reflexivity|]. split; [|split]; [apply incl_refl|apply incl_refl|auto].
      - destruct (opt_list (map qin_of_flat ins)) as [is|] eqn:Ei; try discriminate. injection E as <-.
        apply opt_list_map2 in Ei.
        match type of Ed with (if ?c then _ else _) = _ => destruct c eqn:Ec end; [|discriminate].
        injection Ed as <-. apply andb_prop in Ec as [Ec E5]. apply andb_prop in Ec as [Ec E4].
        apply andb_prop in Ec as [Ec E3]. apply andb_prop in Ec as [Ec0 E2'].
        cbn [intro_all intro].
        rewrite (subset_via _ _ _ (forall2_vars _ _ _ _ Ei (qin_of_flat_vars)) H1 Ec0), E2', E3, E5.
        rewrite <- (f2_length Ei), E4. cbn [andb].
        eexists; split; [reflexivity|]. split; [|split]; [apply incl_refl|apply incl_refl|apply in_or_app; auto].
      - destruct (opt_list (map lc_of_flat es)) as [ls|] eqn:Ei; try discriminate. injection E as <-.
        apply opt_list_map2 in Ei. destruct (subset (flat_map fvars es) d) eqn:Es; [|discriminate].
        injection Ed as <-. cbn [intro_all intro].
        rewrite (subset_via _ _ _ (forall2_vars _ _ _ _ Ei (lc_of_flat_vars)) H1 Es).
        eexists; split; [reflexivity|]. split; [|split]; [apply incl_refl|apply incl_refl|auto].
      - injection E as <-. injection Ed as <-. eexists; split; [reflexivity|]. split; [|split]; [apply incl_refl|apply incl_refl|auto]. }
    destruct Hs as [d2 [Hd2 [Ha [Hb Hv]]]]. rewrite Hd2.
    destruct (IH d1 o b Hv Hi eq_refl) as [o' [Ho' [Hc Hd]]].
    destruct (intro_all_mono b d1 d2 o' Ha Hb Ho') as [o2 [Ho2 [He Hf]]].
    exists o2. split; auto. split; [intros x Hx|intros x Hx]; auto.
Qed.

Lemma fintro_all_app : forall a b d, fintro_all d (a ++ b) =
  match fintro_all d a with Some d1 => fintro_all d1 b | None => None end.
Proof. induction a as [|s r IH]; intros b d; cbn [app fintro_all]; auto. destruct (fintro d s); auto. Qed.

(** ** Every well-formed flat program has an honest assignment extending given values *)
Lemma feval_ext : forall e w w', (forall v, In v (fvars e) -> w v = w' v) -> feval w e = feval w' e.
Proof.
  induction e as [c|v|a IHa b IHb|a IHa b IHb|a IHa b IHb]; intros w w' H; cbn [feval fvars] in *; auto.
  - apply H; left; auto.
  - rewrite (IHa w w'), (IHb w w'); auto; intros; apply H, in_or_app; auto.
  - rewrite (IHa w w'), (IHb w w'); auto; intros; apply H, in_or_app; auto.
  - rewrite (IHa w w'), (IHb w w'); auto; intros; apply H, in_or_app; auto.
Qed.

Definition upd (w : env) (v : var) (x : F) : env := fun u => if u =? v then x else w u.
Fixpoint upds (w : env) (vs : list var) (xs : list F) : env :=
  match vs, xs with v :: r, x :: s => upd (upds w r s) v x | _, _ => w end.
Lemma upds_other : forall vs xs w u, ~ In u vs -> upds w vs xs u = w u.
Proof.
  induction vs as [|v r IH]; intros [|x s] w u H; cbn [upds]; auto.
  unfold upd. destruct (Z.eqb_spec u v) as [->|]; [exfalso; apply H; left; auto|]. apply IH. intros Hi; apply H; right; auto.
Qed.
Lemma upds_map : forall vs xs w, NoDup vs -> length xs = length vs -> map (upds w vs xs) vs = xs.
Proof.
  induction vs as [|v r IH]; intros [|x s] w Hn Hl; try discriminate; auto.
  inversion Hn as [|? ? Hv Hr]; subst. cbn [map upds]. unfold upd at 1. rewrite Z.eqb_refl. f_equal.
  rewrite <- (IH s w Hr) at 2 by (cbn in Hl; lia). apply map_ext_in. intros u Hu. unfold upd.
  destruct (Z.eqb_spec u v) as [->|]; [contradiction|auto].
Qed.
Lemma nodupb_NoDup : forall l, nodupb l = true -> NoDup l.
Proof.
  induction l as [|x r IH]; intros H; [constructor|]. cbn [nodupb] in H. apply andb_prop in H as [H1 H2].
  constructor; auto. intros Hi. apply negb_true_iff in H1. apply mem_In in Hi. congruence.
Qed.

(** A solver which always answers with the number of values its signature announces. *)
Definition total_on (solve : solver -> list F -> option (list F)) (s : fstmt) : Prop :=
  match s with
  | XDir _ sv _ => forall xs, length xs = fst (solver_sig sv) ->
      exists r, solve sv xs = Some r /\ length r = snd (solver_sig sv)
  | XNote _ => False
  | _ => True
  end.

Definition agree (d : list var) (w w' : env) : Prop := forall v, In v d -> w v = w' v.

Lemma hon_ext : forall solve s d d1 w w', fintro d s = Some d1 -> agree d1 w w' -> hon solve w s -> hon solve w' s.
Proof.
  intros solve s d d1 w w' Hi Ha Hh. destruct s as [v e err|l q err|outs sv ins|fmt es|u]; cbn [fintro hon] in *; auto.
  - destruct (subset (fvars e) d) eqn:Es; [|discriminate]. destruct (mem v d) eqn:Em; [discriminate|].
    injection Hi as <-. apply subset_incl in Es. rewrite <- (Ha v) by (left; auto). rewrite Hh.
    apply feval_ext. intros u Hu. apply Ha. right. auto.
  - match type of Hi with (if ?c then _ else _) = _ => destruct c eqn:Ec end; [|discriminate].
    injection Hi as <-. apply andb_prop in Ec as [Ec E5]. apply andb_prop in Ec as [Ec E4].
    apply andb_prop in Ec as [Ec E3]. apply andb_prop in Ec as [Ec0 E2']. apply subset_incl in Ec0.
    rewrite <- (map_ext_in w w' outs) by (intros v Hv; apply Ha, in_or_app; auto). rewrite <- Hh. f_equal.
    symmetry. apply map_ext_in. intros x Hx. apply feval_ext. intros v Hv. apply Ha, in_or_app. right. apply Ec0.
    apply in_flat_map. eauto.
Qed.
Lemma fintro_incl : forall s d d1, fintro d s = Some d1 -> incl d d1.
Proof.
  intros s d d1 H. destruct s as [v e err|l q err|outs sv ins|fmt es|u]; cbn [fintro] in H;
    try (match type of H with (if ?c then _ else _) = _ => destruct c end; [|discriminate]);
    injection H as <-; intros x Hx; auto; [right; auto|apply in_or_app; auto].
Qed.
Lemma fintro_all_incl : forall ss d d1, fintro_all d ss = Some d1 -> incl d d1.
Proof.
  induction ss as [|s r IH]; intros d d1 H; cbn [fintro_all] in H; [injection H as <-; apply incl_refl|].
  destruct (fintro d s) as [d2|] eqn:E; [|discriminate]. apply fintro_incl in E. apply IH in H.
  intros x Hx; auto.
Qed.
Lemma hon_all_ext : forall solve ss d d1 w w', fintro_all d ss = Some d1 -> agree d1 w w' ->
  Forall (hon solve w) ss -> Forall (hon solve w') ss.
Proof.
  induction ss as [|s r IH]; intros d d1 w w' H Ha Hh; [constructor|]. cbn [fintro_all] in H.
  destruct (fintro d s) as [d2|] eqn:E; [|discriminate]. inversion Hh as [|? ? Hs Hr]; subst. constructor.
  - apply (hon_ext solve s d d2 w w' E); auto. intros v Hv. apply Ha. exact (fintro_all_incl _ _ _ H v Hv).
  - apply (IH d2 d1 w w' H Ha Hr).
Qed.

Theorem honest_exists : forall solve ss d d1, fintro_all d ss = Some d1 -> Forall (total_on solve) ss ->
  forall w, exists w', agree d w w' /\ Forall (hon solve w') ss.
Proof.
  intros solve ss. induction ss as [|s r IH]; intros d d1 H Ht w.
  - exists w. split; [intros v _; auto|constructor].
  - cbn [fintro_all] in H. destruct (fintro d s) as [d2|] eqn:E; [|discriminate].
    inversion Ht as [|? ? Hts Htr]; subst.
    assert (H1 : exists w1, agree d w w1 /\ hon solve w1 s).
    { destruct s as [v e err|l q err|outs sv ins|fmt es|u]; cbn [fintro hon total_on] in *.
      - destruct (subset (fvars e) d) eqn:Es; [|discriminate]. destruct (mem v d) eqn:Em; [discriminate|].
        assert (Hn : ~ In v d) by (intros Hi; apply mem_In in Hi; congruence). apply subset_incl in Es.
        exists (upd w v (feval w e)). split.
        + intros u Hu. unfold upd. destruct (Z.eqb_spec u v) as [->|]; [contradiction|auto].
        + unfold upd at 1. rewrite Z.eqb_refl. apply feval_ext. intros u Hu. unfold upd.
          destruct (Z.eqb_spec u v) as [->|]; [exfalso; auto|auto].
      - exists w. split; [intros v _; auto|auto].
      - match type of E with (if ?c then _ else _) = _ => destruct c eqn:Ec end; [|discriminate].
        apply andb_prop in Ec as [Ec E5]. apply andb_prop in Ec as [Ec E4].
        apply andb_prop in Ec as [Ec E3]. apply andb_prop in Ec as [Ec0 E2']. apply subset_incl in Ec0.
        apply Nat.eqb_eq in E4. apply Nat.eqb_eq in E5. apply nodupb_NoDup in E2'.
        destruct (Hts (map (feval w) ins)) as [xs [Hx Hl]]; [rewrite map_length; auto|].
        assert (Hn : forall o, In o outs -> ~ In o d).
        { intros o Ho Hi. rewrite forallb_forall in E3. specialize (E3 o Ho). apply andb_prop in E3 as [E3 _].
          apply negb_true_iff in E3. apply mem_In in Hi. congruence. }
        exists (upds w outs xs). split.
        + intros u Hu. symmetry. apply upds_other. intros Hi. exact (Hn u Hi Hu).
        + rewrite upds_map by (auto; congruence). rewrite <- Hx. f_equal. apply map_ext_in. intros x Hxi.
          apply feval_ext. intros u Hu. apply upds_other. intros Hi. apply (Hn u Hi). apply Ec0.
          apply in_flat_map; eauto.
      - exists w. split; [intros v _; auto|auto].
      - contradiction. }
    destruct H1 as [w1 [Ha1 Hh1]]. destruct (IH d2 d1 H Htr w1) as [w2 [Ha2 Hh2]].
    exists w2. split.
    + intros v Hv. rewrite (Ha1 v Hv). apply Ha2. exact (fintro_incl _ _ _ E v Hv).
    + constructor; auto. exact (hon_ext solve s d d2 w1 w2 E Ha2 Hh1).
Qed.
End FlatProofs.
