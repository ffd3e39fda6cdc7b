(** Proofs about Flatten.v: scopes, single assignment and the final return of a flattened program. *)
From Coq Require Import String Ascii.
From Coq Require Import ZArith NArith List Bool Lia.
From Verif Require Import PField Interp Bits Zir CgProg CgWf CgEnd UintOpt Panic DeadCode ZPropStmt Source Str Abi Typed Flatten FlattenOps FlattenSim FlattenRun FlattenTy.
Import ListNotations.
Open Scope Z_scope.

Section Shape.
Context {PF : PrimeField}.
(** the identifiers of the components of the variables in P *)
Definition of_vars (P : Z -> Prop) (x : ident) : Prop := exists s, x = name s /\ P (base s).
Definition reads (P : ident -> Prop) (zs : list zexp) : Prop := Forall (fun z => forall x, In x (evars z) -> P x) zs.
Lemma reads_in : forall P zs, reads P zs <-> forall x, In x (evarss zs) -> P x.
Proof.
  intros P zs. unfold reads, evarss. rewrite Forall_forall. split; [intros H x I; apply in_flat_map in I as [z [A B]]; exact (H z A x B)|intros H z A x B; apply H, in_flat_map; eauto].
Qed.
Lemma reads_slice : forall P zs i j r, reads P zs -> zslice zs i j = Some r -> reads P r.
Proof. intros P zs i j r H E. apply zslice_ok in E as [_ ->]. unfold reads in *. rewrite Forall_forall in *. intros z I. apply H. rewrite <- (firstn_skipn i zs). apply in_or_app. right. rewrite <- (firstn_skipn (j - i) (skipn i zs)). apply in_or_app. left. exact I. Qed.
Lemma pop_in : forall zs z, popE zs = Some z -> In z zs.
Proof. intros zs z H. unfold popE in H. destruct (rev zs) as [|y r] eqn:E; [discriminate H|]. injection H as ->. apply in_rev. rewrite E. left. reflexivity. Qed.
Lemma reads_pop : forall (P : ident -> Prop) zs z, reads P zs -> popE zs = Some z -> forall x, In x (evars z) -> P x.
Proof. intros P zs z H E. unfold reads in H. rewrite Forall_forall in H. exact (H z (pop_in _ _ E)). Qed.
Lemma reads_one : forall (P : ident -> Prop) z, (forall x, In x (evars z) -> P x) -> reads P [z].
Proof. intros P z H. constructor; [exact H|constructor]. Qed.
Lemma conj_reads : forall (P : ident -> Prop) f v w z, conj_tree f v w = Some z -> reads P v -> reads P w -> forall x, In x (evars z) -> P x.
Proof.
  intros P. assert (Q : forall a b z, zeq a b = Some z -> evars z = evars a ++ evars b) by (intros a b z E; unfold zeq in E; destruct (zkind a), (zkind b); try discriminate E; injection E as <-; reflexivity).
  assert (G : forall f v w z n, (forall v w z, conj_tree f v w = Some z -> reads P v -> reads P w -> forall x, In x (evars z) -> P x) -> reads P v -> reads P w ->
    match conj_tree f (firstn n v) (firstn n w), conj_tree f (skipn n v) (skipn n w) with Some a, Some b => Some (ZBBin BAnd a b) | _, _ => None end = Some z -> forall x, In x (evars z) -> P x).
  { intros f v w z n IH Hv Hw H x I. destruct (conj_tree f (firstn n v) (firstn n w)) as [z1|] eqn:E1; [|discriminate H]. destruct (conj_tree f (skipn n v) (skipn n w)) as [z2|] eqn:E2; [|discriminate H]. injection H as <-. cbn [evars] in I.
    unfold reads in *. rewrite Forall_forall in *. apply in_app_or in I as [I|I].
    - apply (IH _ _ _ E1); [| |exact I]; apply Forall_forall; intros q Q'; [apply Hv|apply Hw]; rewrite <- (firstn_skipn n); apply in_or_app; left; exact Q'.
    - apply (IH _ _ _ E2); [| |exact I]; apply Forall_forall; intros q Q'; [apply Hv|apply Hw]; rewrite <- (firstn_skipn n); apply in_or_app; right; exact Q'. }
  assert (K : forall a b z, zeq a b = Some z -> reads P [a] -> reads P [b] -> forall x, In x (evars z) -> P x).
  { intros a b z E A B x I. rewrite (Q _ _ _ E) in I. apply in_app_or in I as [I|I]; [exact (Forall_inv A x I)|exact (Forall_inv B x I)]. }
  induction f as [|f IH]; intros v w z H Hv Hw.
  - destruct v as [|a [|a' v]], w as [|b [|b' w]]; cbn [conj_tree] in H; try (destruct (length _ =? length _)%nat in H; discriminate H); [injection H as <-; intros x []|]. exact (K _ _ _ H Hv Hw).
  - destruct v as [|a [|a' v]], w as [|b [|b' w]]; cbn [conj_tree] in H; try (destruct (length _ =? length _)%nat in H; [|discriminate H]; eapply (G f _ _ _ _ IH Hv Hw); exact H); [injection H as <-; intros x []|]. exact (K _ _ _ H Hv Hw).
Qed.
Lemma sel_evars : forall k es i, evars (ZSel k es i) = evarss es ++ evars i.
Proof. intros. cbn [evars]. f_equal. Qed.
Lemma zselect_reads : forall (P : ident -> Prop) i col z, zselect i col = Some z -> reads P col -> (forall x, In x (evars i) -> P x) -> forall x, In x (evars z) -> P x.
Proof.
  intros P i col z H R I x X. destruct col as [|z0 col]; [discriminate H|]. unfold zselect in H. destruct (forallb _ (z0 :: col)); [|discriminate H]. injection H as <-. rewrite sel_evars in X. apply in_app_or in X as [X|X]; [|exact (I x X)]. apply (proj1 (reads_in P _) R x X).
Qed.
Lemma zchunks_reads : forall (P : ident -> Prop) k fuel zs, reads P zs -> Forall (reads P) (zchunks fuel k zs).
Proof.
  intros P k fuel. induction fuel as [|f IH]; intros zs H; cbn [zchunks]; [constructor|]. destruct zs as [|z zs]; [constructor|]. unfold reads in *. rewrite Forall_forall in H. constructor; [|apply IH]; apply Forall_forall; intros q Q; apply H; rewrite <- (firstn_skipn k); apply in_or_app; auto.
Qed.
Lemma transpose_reads : forall (P : ident -> Prop) size cs, Forall (reads P) cs -> Forall (reads P) (transpose size cs).
Proof.
  intros P size cs H. unfold transpose. assert (B : Forall (reads P) (repeat [] size)) by (induction size; constructor; [constructor|assumption]). revert H B. generalize (@repeat (list zexp) [] size). induction cs as [|c cs IH]; intros acc H B; [exact B|]. cbn [fold_left]. inversion H as [|? ? H1 H2]; subst. apply IH; [exact H2|].
  apply Forall_forall. intros q Q. apply in_map_iff in Q as [[a z] [<- Q]]. cbn [fst snd]. pose proof (in_combine_l _ _ _ _ Q) as Qa. pose proof (in_combine_r _ _ _ _ Q) as Qz. rewrite Forall_forall in B. apply Forall_app. split; [exact (B a Qa)|]. constructor; [|constructor]. unfold reads in H1. rewrite Forall_forall in H1. exact (H1 z Qz).
Qed.
Lemma zsel_reads : forall (P : ident -> Prop) size zs i r, zsel size zs i = Some r -> reads P zs -> (forall x, In x (evars i) -> P x) -> reads P r.
Proof.
  intros P size zs i r H R I.
  assert (G : match size with O => None | _ => mapO (zselect i) (transpose size (zchunks (length zs) size zs)) end = Some r -> reads P r).
  { clear H. intros H. destruct size as [|n]; [discriminate H|]. apply mapO_inv in H. pose proof (transpose_reads P (S n) _ (zchunks_reads P (S n) (length zs) zs R)) as T. revert T. induction H as [|c z cs r E _ IH]; intros T; [constructor|]. inversion T as [|? ? T1 T2]; subst. constructor; [exact (zselect_reads P i c z E T1 I)|apply IH; exact T2]. }
  destruct i; try exact (G H). apply (reads_slice P zs _ _ r R H).
Qed.
Lemma comb_reads : forall P op zss zs, comb op zss = Some zs -> Forall (reads P) zss -> reads P zs.
Proof.
  intros P op zss zs H R.
  assert (O1 : forall f, (forall e, evars (f e) = evars e) -> zop1 f zss = Some zs -> reads P zs).
  { intros f Hf E. unfold zop1 in E. destruct zss as [|a [|]]; try discriminate E. destruct (popE a) as [x|] eqn:Ep; [|discriminate E]. injection E as <-. apply reads_one. rewrite Hf. exact (reads_pop P a x (Forall_inv R) Ep). }
  assert (O2 : forall f, (forall e g, evars (f e g) = evars e ++ evars g) -> zop2 f zss = Some zs -> reads P zs).
  { intros f Hf E. unfold zop2 in E. destruct zss as [|a [|b [|]]]; try discriminate E. destruct (popE a) as [x|] eqn:Ep; [|discriminate E]. destruct (popE b) as [y|] eqn:Eq; [|discriminate E]. injection E as <-. apply reads_one. rewrite Hf. intros q Q. apply in_app_or in Q as [Q|Q]; [exact (reads_pop P a x (Forall_inv R) Ep q Q)|exact (reads_pop P b y (Forall_inv (Forall_inv_tail R)) Eq q Q)]. }
  assert (Oc : reads P (concat zss)) by (clear - R; induction R as [|a l A _ IH]; [constructor|]; cbn [concat]; apply Forall_app; split; assumption).
  destruct op; cbn [comb] in H; try (destruct zss; [injection H as <-; constructor; [intros x []|constructor]|discriminate H]); try (refine (O1 _ _ H); intros; reflexivity); try (refine (O2 _ _ H); intros; reflexivity); try (injection H as <-; exact Oc).
  - destruct zss as [|a [|b [|]]]; try discriminate H. destruct (conj_tree (length a) a b) as [z|] eqn:E; [|discriminate H]. injection H as <-. apply reads_one. exact (conj_reads P _ _ _ _ E (Forall_inv R) (Forall_inv (Forall_inv_tail R))).
  - destruct zss as [|a [|b [|]]]; try discriminate H. destruct (popE b) as [i|] eqn:E; [|discriminate H]. exact (zsel_reads P _ _ _ _ H (Forall_inv R) (reads_pop P b i (Forall_inv (Forall_inv_tail R)) E)).
  - destruct zss as [|a [|]]; try discriminate H. destruct (moffset m ms) as [[o n]|]; [|discriminate H]. exact (reads_slice P a _ _ _ (Forall_inv R) H).
  - destruct zss as [|a [|]]; try discriminate H. destruct (nth_error ts k) as [u|]; [|discriminate H]. exact (reads_slice P a _ _ _ (Forall_inv R) H).
  - destruct (length (concat zss) =? n * prim_count ty)%nat; [|discriminate H]. injection H as <-. exact Oc.
  - destruct zss as [|a [|]]; try discriminate H. exact (reads_slice P a _ _ _ (Forall_inv R) H).
  - destruct zss as [|a [|]]; try discriminate H. injection H as <-. pose proof (Forall_inv R) as A. clear - A. match goal with |- reads _ (concat (repeat _ ?k)) => induction k as [|k IH] end; [constructor|]. cbn [repeat concat]. apply Forall_app. split; [exact A|exact IH].
Qed.
Lemma zconds_reads : forall (P : ident -> Prop) c xs ys zs, zconds c xs ys = Some zs -> (forall x, In x (evars c) -> P x) -> reads P xs -> reads P ys -> reads P zs.
Proof.
  intros P c xs. induction xs as [|x xs IH]; intros ys zs H C A B; destruct ys as [|y ys]; try discriminate H; [injection H as <-; constructor|]. cbn [zconds] in H. destruct (zcond c x y) as [z|] eqn:E; [|discriminate H]. destruct (zconds c xs ys) as [l|] eqn:El; [|discriminate H]. injection H as <-.
  constructor; [|exact (IH _ _ El C (Forall_inv_tail A) (Forall_inv_tail B))]. assert (Q : evars z = evars c ++ evars x ++ evars y) by (unfold zcond in E; destruct (zkind x), (zkind y); try discriminate E; injection E as <-; reflexivity). rewrite Q. intros q I. apply in_app_or in I as [I|I]; [exact (C q I)|]. apply in_app_or in I as [I|I]; [exact (Forall_inv A q I)|exact (Forall_inv B q I)].
Qed.
Lemma reads_mono : forall (P Q : ident -> Prop) zs, (forall x, P x -> Q x) -> reads P zs -> reads Q zs.
Proof. intros P Q zs H R. unfold reads in *. revert R. apply Forall_impl. intros z A x I. apply H, A, I. Qed.
Lemma ov_mono : forall (P Q : Z -> Prop) x, (forall y, P y -> Q y) -> of_vars P x -> of_vars Q x.
Proof. intros P Q x H [s [E A]]. exists s. auto. Qed.

(** what is read, what is defined *)
Definition vis (S : tctx) (D : list Z) (x : Z) : Prop := S x <> None \/ In x D.
Record shaped (S : tctx) (D : list Z) (ss : list zstmt) : Prop := mkShaped {
  sh_uses : forall x, In x (usess ss) -> of_vars (vis S D) x;
  sh_defs : forall x, In x (defss ss) -> of_vars (fun y => In y D) x;
  sh_once : NoDup (defss ss);
  sh_noret : Forall noret ss;
  sh_scoped : Forall scoped ss }.
Lemma shaped_nil : forall S D, shaped S D [].
Proof. intros S D. constructor; [intros x []|intros x []|constructor|constructor|constructor]. Qed.
Lemma of_vars_inj : forall P Q x, of_vars P x -> of_vars Q x -> exists y, P y /\ Q y.
Proof. intros P Q x [s [-> A]] [r [E B]]. apply name_inj in E. subst r. eauto. Qed.
Lemma shaped_app : forall S S1 D E a b, shaped S D a -> shaped S1 E b -> (forall x, S1 x <> None -> vis S D x) -> (forall x, In x D -> ~ In x E) -> shaped S (D ++ E) (a ++ b).
Proof.
  intros S S1 D E a b A B HS Di. constructor.
  - intros x I. rewrite usess_app in I. apply in_app_or in I as [I|I]; [apply (sh_uses _ _ _ A) in I; revert I; apply ov_mono; intros y [V|V]; [left; exact V|right; apply in_or_app; auto]|].
    apply (sh_uses _ _ _ B) in I. revert I. apply ov_mono. intros y [V|V]; [destruct (HS y V) as [W|W]; [left; exact W|right; apply in_or_app; auto]|right; apply in_or_app; auto].
  - intros x I. rewrite defss_app in I. apply in_app_or in I as [I|I]; [apply (sh_defs _ _ _ A) in I|apply (sh_defs _ _ _ B) in I]; revert I; apply ov_mono; intros y V; apply in_or_app; auto.
  - rewrite defss_app. apply nodup_app; [apply (sh_once _ _ _ A)|apply (sh_once _ _ _ B)|]. intros x I J. apply (sh_defs _ _ _ A) in I. apply (sh_defs _ _ _ B) in J. destruct (of_vars_inj _ _ _ I J) as [y [Y1 Y2]]. exact (Di y Y1 Y2).
  - apply Forall_app. split; [apply (sh_noret _ _ _ A)|apply (sh_noret _ _ _ B)].
  - apply Forall_app. split; [apply (sh_scoped _ _ _ A)|apply (sh_scoped _ _ _ B)].
Qed.
Lemma noret_go : forall l, (fix go (l : list zstmt) : Prop := match l with [] => True | s :: r => noret s /\ go r end) l <-> Forall noret l.
Proof. induction l as [|s r IH]; [split; auto|]. split; [intros [A B]; constructor; tauto|intros H; inversion H; tauto]. Qed.
Lemma shaped_if : forall S D E z a b, (forall x, In x (evars z) -> of_vars (fun y => S y <> None) x) -> shaped S D a -> shaped S E b -> fresh S D -> (forall x, In x D -> ~ In x E) -> shaped S (D ++ E) (match a, b with [], [] => [] | _, _ => [ZIf z a b] end).
Proof.
  intros S D E z a b Z A B Fr Di. assert (G : shaped S (D ++ E) [ZIf z a b]).
  { pose proof (shaped_app S S D E a b A B (fun x H => or_introl H) Di) as AB. constructor.
    - intros x I. unfold usess in I. cbn [flat_map] in I. rewrite app_nil_r in I. cbn [uses] in I. change (In x (evars z ++ usess a ++ usess b)) in I. apply in_app_or in I as [I|I]; [apply Z in I; revert I; apply ov_mono; intros y V; left; exact V|]. rewrite <- usess_app in I. exact (sh_uses _ _ _ AB x I).
    - intros x I. unfold defss in I. cbn [flat_map] in I. rewrite app_nil_r in I. cbn [defs] in I. change (In x (defss a ++ defss b)) in I. rewrite <- defss_app in I. exact (sh_defs _ _ _ AB x I).
    - unfold defss. cbn [flat_map]. rewrite app_nil_r. cbn [defs]. change (NoDup (defss a ++ defss b)). rewrite <- defss_app. exact (sh_once _ _ _ AB).
    - constructor; [|constructor]. cbn [noret]. rewrite !noret_go. split; [exact (sh_noret _ _ _ A)|exact (sh_noret _ _ _ B)].
    - constructor; [|constructor]. cbn [scoped]. rewrite !scoped_go. split; [|split; [exact (sh_scoped _ _ _ A)|exact (sh_scoped _ _ _ B)]]. intros x I J. apply (sh_defs _ _ _ A) in I. apply (sh_uses _ _ _ B) in J. destruct (of_vars_inj _ _ _ I J) as [y [Y1 [Y2|Y2]]]; [exact (Y2 (proj2 Fr y Y1))|exact (Di y Y1 Y2)]. }
  destruct a; [destruct b; [apply shaped_nil|exact G]|exact G].
Qed.
Lemma shaped_one : forall S D s, (match s with ZIf _ _ _ | ZReturn _ => False | _ => True end) -> (forall x, In x (uses s) -> of_vars (vis S []) x) -> (forall x, In x (defs s) -> of_vars (fun y => In y D) x) -> NoDup (defs s) -> shaped S D [s].
Proof.
  intros S D s K U Df N. constructor; unfold usess, defss; cbn [flat_map]; rewrite ?app_nil_r; [intros x I; apply U in I; revert I; apply ov_mono; intros y [V|[]]; left; exact V|exact Df|exact N| |]; (constructor; [destruct s; try contradiction; exact I|constructor]).
Qed.
Definition shape_e (S : tctx) (e : texp) (t : cty) : Prop := forall ss zs, tflat e = Some (ss, zs) -> fresh S (tdefs e) -> shaped S (tdefs e) ss /\ reads (of_vars (vis S (tdefs e))) zs.
Definition shape_es (S : tctx) (es : list texp) (ts : list cty) : Prop := forall ss zss, tflats es = Some (ss, zss) -> fresh S (tdefss es) -> shaped S (tdefss es) ss /\ Forall (reads (of_vars (vis S (tdefss es)))) zss.
Definition shape_s (S : tctx) (s : tstmt) (S1 : tctx) : Prop := forall ss, tflat_stmt s = Some ss -> fresh S (sdefs s) -> shaped S (sdefs s) ss.
Definition shape_ss (S : tctx) (ss : list tstmt) (S1 : tctx) : Prop := forall zs, tflat_stmts ss = Some zs -> fresh S (sdefss ss) -> shaped S (sdefss ss) zs.
Lemma reads_vis : forall S D E zs, (forall x, In x D -> In x E) -> reads (of_vars (vis S D)) zs -> reads (of_vars (vis S E)) zs.
Proof. intros S D E zs H. apply reads_mono. intros x. apply ov_mono. intros y [V|V]; [left; exact V|right; auto]. Qed.
(** statements that read what was defined before them *)
Lemma shaped_then : forall S D E a s, shaped S D a -> (match s with ZIf _ _ _ | ZReturn _ => False | _ => True end) -> (forall x, In x (uses s) -> of_vars (vis S D) x) -> (forall x, In x (defs s) -> of_vars (fun y => In y E) x) -> NoDup (defs s) -> (forall x, In x D -> ~ In x E) -> shaped S (D ++ E) (a ++ [s]).
Proof.
  intros S D E a s A K U Df N Di. pose (S1 := fun y => if in_dec Z.eq_dec y D then Some CField else S y).
  apply (shaped_app S S1); [exact A| |intros x H; unfold S1 in H; destruct (in_dec Z.eq_dec x D) as [I|I]; [right; exact I|left; exact H]|exact Di].
  apply shaped_one; try assumption. intros x I. apply U in I. revert I. apply ov_mono. intros y [V|V]; left; unfold S1; destruct (in_dec Z.eq_dec y D); try discriminate; [exact V|contradiction].
Qed.
Lemma shaped_defs : forall S D x ids zs a, shaped S D a -> reads (of_vars (vis S D)) zs -> length ids = length zs -> NoDup (map fst ids) -> Forall (fun p : sid * lty => base (fst p) = x) ids -> ~ In x D -> shaped S (D ++ [x]) (a ++ defs_zip ids zs).
Proof.
  intros S D x ids zs a A R L N B Nx.
  assert (U : forall ids zs, length ids = length zs -> usess (defs_zip ids zs) = evarss zs /\ defss (defs_zip ids zs) = map (fun p => name (fst p)) ids /\ Forall noret (defs_zip ids zs) /\ Forall scoped (defs_zip ids zs)).
  { clear. induction ids as [|p ids IH]; intros [|z zs] L; try discriminate L; [repeat split; constructor|]. destruct (IH zs ltac:(injection L as L; exact L)) as [I1 [I2 [I3 I4]]]. unfold defs_zip in *. cbn [combine map usess defss flat_map uses defs fst snd]. unfold usess, defss in I1, I2. rewrite I1, I2. split; [reflexivity|]. split; [reflexivity|]. split; constructor; try exact I; assumption. }
  destruct (U ids zs L) as [U1 [U2 [U3 U4]]]. constructor.
  - intros y I. rewrite usess_app, U1 in I. apply in_app_or in I as [I|I]; [apply (sh_uses _ _ _ A) in I|apply (proj1 (reads_in _ _) R) in I]; revert I; apply ov_mono; intros q [V|V]; try (left; exact V); right; apply in_or_app; auto.
  - intros y I. rewrite defss_app, U2 in I. apply in_app_or in I as [I|I]; [apply (sh_defs _ _ _ A) in I; revert I; apply ov_mono; intros q V; apply in_or_app; auto|]. apply in_map_iff in I as [p [<- I]]. exists (fst p). split; [reflexivity|]. rewrite Forall_forall in B. rewrite (B p I). apply in_or_app. right. left. reflexivity.
  - rewrite defss_app, U2. apply nodup_app; [exact (sh_once _ _ _ A)| |].
    + rewrite <- (map_map fst name). apply FinFun.Injective_map_NoDup; [intros p q; apply name_inj|exact N].
    + intros y I J. apply (sh_defs _ _ _ A) in I as [s [-> I]]. apply in_map_iff in J as [p [E J]]. apply name_inj in E. subst s. rewrite Forall_forall in B. rewrite (B p J) in I. contradiction.
  - apply Forall_app. split; [exact (sh_noret _ _ _ A)|exact U3].
  - apply Forall_app. split; [exact (sh_scoped _ _ _ A)|exact U4].
Qed.
Lemma reads_concat : forall (P : ident -> Prop) zss, Forall (reads P) zss -> reads P (concat zss).
Proof. induction 1; [constructor|]. cbn [concat]. apply Forall_app. split; assumption. Qed.

Theorem flatten_shape : (forall S e t, tty S e t -> shape_e S e t) /\ (forall S es ts, ttys S es ts -> shape_es S es ts) /\ (forall S s S1, tsty S s S1 -> shape_s S s S1) /\ (forall S ss S1, tstys S ss S1 -> shape_ss S ss S1).
Proof.
  apply typed_ind.
  - intros S t x E ss zs H Fr. cbn [tflat] in H. injection H as <- <-. split; [apply shaped_nil|]. apply Forall_forall. intros z I. apply in_map_iff in I as [[s l] [<- I]]. cbn [evars fst]. intros y [<-|[]]. exists s. split; [reflexivity|]. left. rewrite (ids_base _ _ _ _ I). cbn [base]. congruence.
  - intros S op args ts t _ IH O ss zs H Fr. cbn [tflat] in H. destruct (flat_list tflat args) as [[sa zss]|] eqn:E; [|discriminate H]. destruct (comb op zss) as [zs'|] eqn:Ec; [|discriminate H]. injection H as <- <-. destruct (IH sa zss E Fr) as [A B]. split; [exact A|]. exact (comb_reads _ _ _ _ Ec B).
  - intros S c x y t _ IHc _ IHx _ IHy ss zs H Fr. cbn [tflat] in H. destruct (tflat c) as [[sc zc]|] eqn:Ec; [|discriminate H]. destruct (tflat x) as [[sx zx]|] eqn:Ex; [|discriminate H]. destruct (tflat y) as [[sy zy]|] eqn:Ey; [|discriminate H].
    destruct (popE zc) as [z|] eqn:Ep; [|discriminate H]. destruct (zconds z zx zy) as [zs'|] eqn:Ez; [|discriminate H]. injection H as <- <-. cbn [tdefs] in *. destruct (fresh_app _ _ _ Fr) as [Fc [Fxy Dc]]. destruct (fresh_app _ _ _ Fxy) as [Fx [Fy Dx]].
    destruct (IHc sc zc Ec Fc) as [Ac Bc]. destruct (IHx sx zx Ex Fx) as [Ax Bx]. destruct (IHy sy zy Ey Fy) as [Ay By].
    pose (S1 := fun q => if in_dec Z.eq_dec q (tdefs c) then Some CField else S q).
    assert (V1 : forall D q, vis S D q -> vis S1 D q) by (intros D q [V|V]; [left; unfold S1; destruct (in_dec Z.eq_dec q (tdefs c)); [discriminate|exact V]|right; exact V]).
    assert (Sh : forall D a, shaped S D a -> shaped S1 D a) by (intros D a [P1 P2 P3 P4 P5]; constructor; try assumption; intros q Q; apply P1 in Q; revert Q; apply ov_mono; apply V1).
    split.
    + apply (shaped_app S S1); [exact Ac| |intros q Q; unfold S1 in Q; destruct (in_dec Z.eq_dec q (tdefs c)) as [I|I]; [right; exact I|left; exact Q]|exact Dc].
      apply shaped_if; [|apply Sh; exact Ax|apply Sh; exact Ay| |exact Dx].
      * intros q Q. apply (reads_pop _ _ _ Bc Ep) in Q. revert Q. apply ov_mono. intros w [V|V]; unfold S1; destruct (in_dec Z.eq_dec w (tdefs c)); try discriminate; [exact V|contradiction].
      * split; [exact (proj1 Fx)|]. intros q Q. unfold S1. destruct (in_dec Z.eq_dec q (tdefs c)) as [I|I]; [exfalso; apply (Dc q I); apply in_or_app; left; exact Q|exact (proj2 Fx q Q)].
    + apply (zconds_reads _ z zx zy zs' Ez).
      * intros q Q. apply (reads_pop _ _ _ Bc Ep) in Q. revert Q. apply ov_mono. intros w [V|V]; [left; exact V|right; apply in_or_app; auto].
      * revert Bx. apply reads_vis. intros q Q. apply in_or_app. right. apply in_or_app. auto.
      * revert By. apply reads_vis. intros q Q. apply in_or_app. right. apply in_or_app. auto.
  - intros S S' bs e t Ys IHs _ IHe ss zs H Fr. rewrite u_fblock in H. destruct (tflat_stmts bs) as [sa|] eqn:Ea; [|discriminate H]. destruct (tflat e) as [[sb zb]|] eqn:Eb; [|discriminate H]. injection H as <- <-. rewrite u_dblock in *. destruct (fresh_app _ _ _ Fr) as [F1 [F2 D]].
    assert (F3 : fresh S' (tdefs e)) by (apply (fresh_next S S' (sdefss bs)); [exact Fr|apply (dom_tstys bs); exact Ys]). pose proof (IHs sa Ea F1) as A1. destruct (IHe sb zb Eb F3) as [A2 B2].
    split; [apply (shaped_app S S'); [exact A1|exact A2|exact (dom_tstys _ _ _ Ys)|exact D]|]. revert B2. apply reads_mono. intros x. apply ov_mono. intros y [V|V]; [destruct (dom_tstys _ _ _ Ys y V) as [W|W]; [left; exact W|right; apply in_or_app; auto]|right; apply in_or_app; auto].
  - intros S ss zss H Fr. unfold tflats in H. cbn [flat_list] in H. injection H as <- <-. split; [apply shaped_nil|constructor].
  - intros S e es t ts _ IHe _ IHr ss zss H Fr. unfold tflats in H. cbn [flat_list] in H. destruct (tflat e) as [[sa za]|] eqn:Ea; [|discriminate H]. destruct (flat_list tflat es) as [[sb zb]|] eqn:Eb; [|discriminate H]. cbn [fst snd] in H. injection H as <- <-.
    unfold tdefss in *. cbn [tdefs_list] in *. destruct (fresh_app _ _ _ Fr) as [F1 [F2 D]]. destruct (IHe sa za Ea F1) as [A1 B1]. destruct (IHr sb zb Eb F2) as [A2 B2]. split; [apply (shaped_app S S); [exact A1|exact A2|intros x V; left; exact V|exact D]|].
    constructor; [revert B1; apply reads_vis; intros x I; apply in_or_app; auto|]. revert B2. apply Forall_impl. intros zs. apply reads_vis. intros x I. apply in_or_app. auto.
  - intros S x t e G _ IH ss H Fr. rewrite u_fdef in H. destruct (tflat e) as [[sa za]|] eqn:Ea; [|discriminate H]. destruct (length (flat_ids (SBase x) t) =? length za)%nat eqn:El; [|discriminate H]. injection H as <-. rewrite u_ddef in *. destruct (fresh_app _ _ _ Fr) as [F1 [F2 D]].
    destruct (IH sa za Ea F1) as [A B]. apply shaped_defs; [exact A|exact B|apply Nat.eqb_eq; exact El|apply ids_nodup; exact G|apply Forall_forall; intros [s lt] Q; apply (ids_base _ _ _ _ Q)|intros I; apply (D x I); left; reflexivity].
  - intros S e err _ IH ss H Fr. rewrite u_fassert in H. destruct (tflat e) as [[sa za]|] eqn:Ea; [|discriminate H]. destruct (popE za) as [z|] eqn:Ep; [|discriminate H]. injection H as <-. rewrite u_dassert in *. destruct (IH sa za Ea Fr) as [A B].
    rewrite <- (app_nil_r (tdefs e)). apply shaped_then; [exact A|exact I|exact (reads_pop _ _ _ B Ep)|intros x []|constructor|intros x _ []].
  - intros S x t em args ts _ IH O ss H Fr. rewrite u_femb in H. destruct (tflats args) as [[sa zss]|] eqn:Ea; [|discriminate H]. injection H as <-. rewrite u_demb in *. destruct (fresh_app _ _ _ Fr) as [F1 [F2 D]]. destruct (IH sa zss Ea F1) as [A B].
    apply shaped_then; [exact A|exact I|apply (proj1 (reads_in _ _)); apply reads_concat; exact B| | |exact D].
    + intros y Q. cbn [defs] in Q. apply in_map_iff in Q as [[s l] [<- Q]]. exists s. split; [reflexivity|]. left. rewrite (ids_base _ _ _ _ Q). reflexivity.
    + cbn [defs]. rewrite <- (map_map fst name). apply FinFun.Injective_map_NoDup; [intros p q; apply name_inj|apply ids_nodup, (emb_good _ _ _ O)].
  - intros S fmt args ts _ IH ss H Fr. rewrite u_flog in H. destruct (tflats args) as [[sa zss]|] eqn:Ea; [|discriminate H]. injection H as <-. rewrite u_dlog in *. destruct (IH sa zss Ea Fr) as [A B].
    rewrite <- (app_nil_r (tdefss args)). apply shaped_then; [exact A|exact I|apply (proj1 (reads_in _ _)); apply reads_concat; exact B|intros x []|constructor|intros x _ []].
  - intros S zs H Fr. cbn in H. injection H as <-. apply shaped_nil.
  - intros S S1 S2 s ss Y1 IH1 Y2 IH2 zs H Fr. unfold tflat_stmts in H. cbn [flat_stmt_list] in H. destruct (tflat_stmt s) as [za|] eqn:Ea; [|discriminate H]. destruct (flat_stmt_list tflat_stmt ss) as [zb|] eqn:Eb; [|discriminate H]. injection H as <-.
    unfold sdefss in *. cbn [tdefs_stmts] in *. destruct (fresh_app _ _ _ Fr) as [F1 [_ D]]. assert (F2 : fresh S1 (sdefss ss)) by (apply (fresh_next S S1 (sdefs s)); [exact Fr|apply dom_tsty; exact Y1]).
    apply (shaped_app S S1); [apply IH1; [exact Ea|exact F1]|apply IH2; [exact Eb|exact F2]|exact (dom_tsty _ _ _ Y1)|exact D].
Qed.
End Shape.
