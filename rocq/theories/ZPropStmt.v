(** Constant propagation on statements and programs (model in ZProp.v): the meaning is kept. *)
From Coq Require Import ZArith NArith List Bool Lia.
From Verif Require Import PField IR Interp Bits Flat Zir Codegen CgBase CgExpr CgProg CgWf CgEnd UintOpt UintOptProofs Panic DeadCode Source ZProp ZPropVars.
Import ListNotations.
Open Scope Z_scope.

(** [sublog a b]: a is obtained from b by leaving entries out *)
Inductive sublog {A} : list A -> list A -> Prop :=
| sub_nil : sublog [] []
| sub_keep : forall x a b, sublog a b -> sublog (x :: a) (x :: b)
| sub_drop : forall x a b, sublog a b -> sublog a (x :: b).
Lemma sublog_refl : forall A (a : list A), sublog a a.
Proof. induction a; constructor; auto. Qed.
Lemma sublog_ext : forall A (a b c : list A), sublog a b -> sublog a (b ++ c).
Proof. induction 1; cbn [app]; try constructor; auto. induction c; constructor; auto. Qed.
Lemma sublog_snoc : forall A (a b : list A) x, sublog a b -> sublog (a ++ [x]) (b ++ [x]).
Proof. induction 1; cbn [app]; repeat constructor; auto. Qed.

Lemma NoDup_app_inv : forall A (a b : list A), NoDup (a ++ b) -> NoDup a /\ NoDup b /\ forall x, In x a -> ~ In x b.
Proof.
  induction a as [|x a IH]; intros b H; cbn [app] in H; [split; [constructor|split; auto]|]. inversion H as [|? ? N H']; subst. apply IH in H' as [A1 [A2 A3]].
  split; [constructor; auto; intros X; apply N, in_or_app; auto|]. split; auto. intros y [->|Y]; auto. intros X. apply N, in_or_app. auto.
Qed.
Section ZPropStmt.
Context {PF : PrimeField}.

(** a statement without log statements *)
Fixpoint nolog (s : zstmt) : Prop :=
  match s with
  | ZLog _ _ => False
  | ZIf _ a b => (fix go (l : list zstmt) : Prop := match l with [] => True | s :: r => nolog s /\ go r end) a /\
                 (fix go (l : list zstmt) : Prop := match l with [] => True | s :: r => nolog s /\ go r end) b
  | _ => True
  end.
Lemma nolog_go : forall l, (fix go (l : list zstmt) : Prop := match l with [] => True | s :: r => nolog s /\ go r end) l <-> Forall nolog l.
Proof. induction l as [|s r IH]; [split; auto|]. split; [intros [A B]; constructor; tauto|intros H; inversion H; tauto]. Qed.
(** every identifier read is in D or defined earlier *)
Definition inclb (a b : list ident) : bool := forallb (fun x => inb x b) a.
Fixpoint reads_ok (D : list ident) (s : zstmt) : bool :=
  match s with
  | ZReturn es | ZLog _ es | ZEmbed _ _ es => inclb (evarss es) D
  | ZDef _ e | ZAssert e _ => inclb (evars e) D
  | ZIf c a b =>
      let go := fix go (D : list ident) (l : list zstmt) : bool := match l with [] => true | s :: r => reads_ok D s && go (defs s ++ D) r end in
      inclb (evars c) D && go D a && go (defss a ++ D) b
  end.
Fixpoint reads_oks (D : list ident) (l : list zstmt) : bool := match l with [] => true | s :: r => reads_ok D s && reads_oks (defs s ++ D) r end.
Definition closed_prog (p : zprog) : bool := reads_oks (map zpid (zargs p)) (zbody p).
Lemma reads_if : forall D c a b, reads_ok D (ZIf c a b) = inclb (evars c) D && reads_oks D a && reads_oks (defss a ++ D) b.
Proof. reflexivity. Qed.
Lemma inclb_ok : forall a b, inclb a b = true <-> incl a b.
Proof. intros a b. unfold inclb. rewrite forallb_forall. split; intros H x Hx; [apply inb_ok|apply inb_ok]; auto. Qed.
Lemma reads_oks_mono_of : forall l, Forall (fun s => forall D D', incl D D' -> reads_ok D s = true -> reads_ok D' s = true) l ->
  forall D D', incl D D' -> reads_oks D l = true -> reads_oks D' l = true.
Proof.
  induction 1 as [|s r Hs Hr IH]; intros D D' I H; [reflexivity|]. cbn [reads_oks] in *. apply andb_prop in H as [H1 H2]. rewrite (Hs _ _ I H1).
  cbn [andb]. eapply IH; [|exact H2]. intros x Hx. rewrite in_app_iff in *. destruct Hx; auto.
Qed.
Lemma reads_ok_mono : forall s D D', incl D D' -> reads_ok D s = true -> reads_ok D' s = true.
Proof.
  intros s. induction s using zstmt_ind'; intros D D' I E; try (cbn [reads_ok] in *; apply inclb_ok; apply inclb_ok in E; eapply incl_tran; eauto; fail).
  rewrite reads_if in *. apply andb_prop in E as [E E3]. apply andb_prop in E as [E1 E2]. apply inclb_ok in E1.
  assert (X : inclb (evars c) D' = true) by (apply inclb_ok; eapply incl_tran; eauto). rewrite X, (reads_oks_mono_of _ H _ _ I E2). cbn [andb].
  eapply (reads_oks_mono_of _ H0); [|exact E3]. intros x Hx. rewrite in_app_iff in *. destruct Hx; auto.
Qed.
Lemma reads_oks_mono : forall l D D', incl D D' -> reads_oks D l = true -> reads_oks D' l = true.
Proof. intros l. apply reads_oks_mono_of. apply Forall_forall. intros s _. apply reads_ok_mono. Qed.
Lemma reads_oks_app : forall a b D, reads_oks D (a ++ b) = true -> reads_oks D a = true /\ reads_oks (defss a ++ D) b = true.
Proof.
  induction a as [|s r IH]; intros b D H; cbn [app reads_oks] in *; [auto|]. apply andb_prop in H as [H1 H2]. apply IH in H2 as [H2 H3]. rewrite H1, H2. split; [reflexivity|].
  cbn [defss flat_map]. eapply reads_oks_mono; [|exact H3]. intros x Hx. unfold defss in *. rewrite !in_app_iff in *. tauto.
Qed.

(** ** What a statement may change *)
Definition frame (ds : list ident) (P : Prop) (o o1 : outs_s) : Prop :=
  (forall x, ~ In x ds -> os_env o1 x = os_env o x) /\ os_ret o1 = os_ret o /\ exists t, os_log o1 = os_log o ++ t /\ (P -> t = []).
Lemma frame_refl : forall ds P o, frame ds P o o.
Proof. intros. split; auto. split; auto. exists []. rewrite app_nil_r. auto. Qed.
Lemma frame_trans : forall a b (P Q R : Prop) o o1 o2, (R -> P) -> (R -> Q) -> frame a P o o1 -> frame b Q o1 o2 -> frame (a ++ b) R o o2.
Proof.
  intros a b P Q R o o1 o2 I J [A1 [A2 [t [A3 A4]]]] [B1 [B2 [u [B3 B4]]]]. split; [|split; [congruence|]].
  - intros x Hx. rewrite in_app_iff in Hx. rewrite B1, A1; auto.
  - exists (t ++ u). rewrite B3, A3, app_assoc. split; auto. intros r. rewrite A4, B4; auto.
Qed.
Lemma frames_of : forall l, Forall (fun s => forall o o1, noret s -> sem_stmt o s = Some o1 -> frame (defs s) (nolog s) o o1) l ->
  forall o o1, Forall noret l -> sem_stmts o l = Some o1 -> frame (defss l) (Forall nolog l) o o1.
Proof.
  induction 1 as [|s r Hs Hr IH]; intros o o1 N E; cbn [sem_stmts] in E; [injection E as <-; apply frame_refl|].
  destruct (sem_stmt o s) as [o2|] eqn:E2; [|discriminate E]. inversion N; subst. cbn [defss flat_map].
  eapply frame_trans; [| |eapply Hs; eauto|eapply IH; eauto]; intros X; inversion X; auto.
Qed.
Lemma frame_stmt : forall s o o1, noret s -> sem_stmt o s = Some o1 -> frame (defs s) (nolog s) o o1.
Proof.
  intros s. induction s using zstmt_ind'; intros o o1 N E.
  - contradiction.
  - cbn [sem_stmt] in E. destruct (sem (os_env o) e); [|discriminate E]. injection E as <-. split; [|split; [reflexivity|exists []; cbn; rewrite app_nil_r; auto]].
    intros y Hy. cbn. unfold upd_s. destruct (Z.eqb_spec y x); auto. exfalso. apply Hy. left. auto.
  - rewrite sem_if in E. destruct (sem (os_env o) c) as [[]|]; try discriminate E. destruct (sem_stmts o a) as [o2|] eqn:E2; [|discriminate E].
    cbn [noret] in N. rewrite !noret_go in N. destruct N as [N1 N2]. cbn [defs]. rewrite !defs_go.
    eapply frame_trans; [| |exact (frames_of _ H _ _ N1 E2)|exact (frames_of _ H0 _ _ N2 E)]; cbn [nolog]; rewrite !nolog_go; tauto.
  - cbn [sem_stmt] in E. destruct (sem (os_env o) e) as [[|[]|]|]; try discriminate E. injection E as <-. apply frame_refl.
  - cbn [sem_stmt] in E. destruct (sem_list (os_env o) es); [|discriminate E]. destruct (sem_embed em l) as [rs|]; [|discriminate E]. destruct (Nat.eqb _ _); [|discriminate E]. injection E as <-.
    split; [|split; [reflexivity|exists []; cbn; rewrite app_nil_r; auto]]. intros y Hy. cbn. apply upds_s_other. exact Hy.
  - cbn [sem_stmt] in E. destruct (sem_list (os_env o) es); [|discriminate E]. injection E as <-. split; [auto|]. split; [auto|]. eexists. split; [reflexivity|]. cbn. tauto.
Qed.
Lemma frame_stmts : forall l o o1, Forall noret l -> sem_stmts o l = Some o1 -> frame (defss l) (Forall nolog l) o o1.
Proof. intros l. apply frames_of. apply Forall_forall. intros s _. apply frame_stmt. Qed.

(** ** Types of values *)
Lemma env_tr_upd : forall S rho x t v, env_tr S rho -> vtr v t -> env_tr (supd S x t) (upd_s rho x v).
Proof. intros S rho x t v H Hv y t' v' A B. unfold supd, upd_s in *. destruct (y =? x); [congruence|eauto]. Qed.
Lemma env_tr_upds : forall xs ts vs S rho, env_tr S rho -> Forall2 vtr vs ts -> env_tr (supds S xs ts) (upds_s rho xs vs).
Proof. induction xs as [|x xs IH]; intros ts vs S rho H F; [auto|]. inversion F; subst; cbn [supds upds_s]; [auto|]. apply IH; auto. apply env_tr_upd; auto. Qed.
Lemma sem_list_vtr : forall es ts S rho vs, Forall2 (has_ty S) es ts -> env_tr S rho -> sem_list rho es = Some vs -> Forall2 vtr vs ts.
Proof.
  intros es ts S rho vs H. revert vs. induction H as [|e t es ts He H IH]; intros vs Hr E; unfold sem_list in *; cbn [map opt_list] in E; [injection E as <-; constructor|].
  destruct (sem rho e) as [v|] eqn:Ev; [|discriminate E]. destruct (opt_list (map (sem rho) es)) as [ws|]; [|discriminate E]. injection E as <-. constructor; [eapply sem_vtr; eauto|auto].
Qed.
Lemma bits_vtr : forall bs n, length bs = n -> Forall2 vtr (map VB bs) (repeat PB_ n).
Proof. intros bs n <-. induction bs; constructor; auto. exact I. Qed.
Lemma bools_len : forall vs bs, bools_of vs = Some bs -> length bs = length vs.
Proof.
  unfold bools_of. induction vs as [|v vs IH]; intros bs H; cbn [map opt_list] in H; [injection H as <-; reflexivity|]. destruct v; try discriminate H.
  destruct (opt_list _) as [l|]; [|discriminate H]. injection H as <-. cbn. f_equal. apply IH. reflexivity.
Qed.
Lemma sem_embed_vtr : forall em vs rs, Forall2 vtr vs (embed_in em) -> sem_embed em vs = Some rs -> Forall2 vtr rs (embed_out em).
Proof.
  intros em vs rs H E. destruct em; cbn [sem_embed embed_in embed_out] in *.
  - destruct vs as [|[x| |] [|? ?]]; try discriminate E. destruct (Feqb x f0); [injection E as <-; repeat constructor|]. destruct (Feqb x f1); [injection E as <-; repeat constructor|discriminate E].
  - destruct vs as [|[| |x] [|? ?]]; try discriminate E. injection E as <-. apply bits_vtr. apply bits_be_length.
  - destruct (bools_of vs) as [bs|] eqn:B; [|discriminate E]. destruct (Nat.eqb_spec (length bs) w) as [L|]; [|discriminate E]. injection E as <-. constructor; [|constructor]. cbn [vtr]. rewrite <- L. apply bv_range.
  - destruct (bools_of vs) as [bs|] eqn:B; [|discriminate E]. destruct (Nat.eqb _ _); [|discriminate E]. injection E as <-. repeat constructor.
  - destruct vs as [|[x| |] [|? ?]]; try discriminate E. destruct (_ <? _); [|discriminate E]. injection E as <-. apply bits_vtr. apply bits_be_length.
Qed.
Lemma sem_stmts_tr_of : forall l, Forall (fun s => forall S S1 o o1, sty_stmt S s S1 -> env_tr S (os_env o) -> sem_stmt o s = Some o1 -> env_tr S1 (os_env o1)) l ->
  forall S S1 o o1, sty_stmts S l S1 -> env_tr S (os_env o) -> sem_stmts o l = Some o1 -> env_tr S1 (os_env o1).
Proof.
  induction 1 as [|s r Hs Hr IH]; intros S S1 o o1 T He E; cbn [sem_stmts] in E; inversion T; subst; [injection E as <-; auto|]. destruct (sem_stmt o s) as [o2|] eqn:E2; [|discriminate E]. eauto.
Qed.
Lemma sem_stmt_tr : forall s S S1 o o1, sty_stmt S s S1 -> env_tr S (os_env o) -> sem_stmt o s = Some o1 -> env_tr S1 (os_env o1).
Proof.
  intros s. induction s using zstmt_ind'; intros S S1 o o1 T He E; inversion T; subst.
  - cbn [sem_stmt] in E. destruct (sem_list (os_env o) es); [|discriminate E]. injection E as <-. exact He.
  - cbn [sem_stmt] in E. destruct (sem (os_env o) e) as [v|] eqn:Ev; [|discriminate E]. injection E as <-. apply env_tr_upd; auto. eapply sem_vtr; eauto.
  - rewrite sem_if in E. destruct (sem (os_env o) c) as [[]|]; try discriminate E. destruct (sem_stmts o a) as [o2|] eqn:E2; [|discriminate E].
    eapply (sem_stmts_tr_of _ H0); [eassumption| |exact E]. eapply (sem_stmts_tr_of _ H); eassumption.
  - cbn [sem_stmt] in E. destruct (sem (os_env o) e) as [[|[]|]|]; try discriminate E. injection E as <-. exact He.
  - cbn [sem_stmt] in E. destruct (sem_list (os_env o) es) as [vs|] eqn:Ev; [|discriminate E]. destruct (sem_embed em vs) as [rs|] eqn:Er; [|discriminate E]. destruct (Nat.eqb _ _); [|discriminate E]. injection E as <-.
    apply env_tr_upds; auto. eapply sem_embed_vtr; [|exact Er]. eapply sem_list_vtr; eauto.
  - cbn [sem_stmt] in E. destruct (sem_list (os_env o) es); [|discriminate E]. injection E as <-. exact He.
Qed.
Lemma sem_stmts_tr : forall l S S1 o o1, sty_stmts S l S1 -> env_tr S (os_env o) -> sem_stmts o l = Some o1 -> env_tr S1 (os_env o1).
Proof. intros l. apply sem_stmts_tr_of. apply Forall_forall. intros s _. apply sem_stmt_tr. Qed.
Lemma bind_params_tr : forall ps xs S rho rho', env_tr S rho -> bind_params rho ps xs = Some rho' ->
  env_tr (fold_left (fun S p => supd S (zpid p) (zptype p)) ps S) rho'.
Proof.
  induction ps as [|p ps IH]; intros [|x xs] S rho rho' H E; cbn [bind_params fold_left] in *; try discriminate E; [injection E as <-; auto|].
  destruct (val_of_input (zptype p) x) as [v|] eqn:V; [|discriminate E]. eapply IH; [|exact E]. apply env_tr_upd; auto.
  destruct (zptype p); cbn [val_of_input] in V.
  - injection V as <-. exact I.
  - destruct (Feqb x f0); [injection V as <-; exact I|]. destruct (Feqb x f1); [injection V as <-; exact I|discriminate V].
  - match type of V with (if ?b then _ else _) = _ => destruct (Z.ltb_spec (fval x) (2 ^ Z.of_nat w)) end; [|discriminate V]. injection V as <-. cbn. split; [apply fval_range|auto].
Qed.

(** ** The statements *)
Definition src (S : senv) (C : cenv) (Dom : list ident) (o : outs_s) : Prop :=
  env_tr S (os_env o) /\ cst_ok C (os_env o) /\ (forall x c, C x = Some c -> In x Dom).
Definition logrel (nb : bool) (a b : list (Z * list F)) : Prop := if nb then a = b else sublog a b.
Definition tgt (nb : bool) (C : cenv) (D : list ident) (o o' : outs_s) : Prop :=
  (forall x, In x D -> C x = None -> os_env o' x = os_env o x) /\ os_ret o' = os_ret o /\ logrel nb (os_log o') (os_log o).
Definition disj (a b : list ident) : Prop := forall x, In x a -> ~ In x b.
(** a conditional statement defines identifiers which are not in Dom, each once; a built-in call defines identifiers which are not in
    Dom or which its arguments do not read *)
Definition anew (Dom : list ident) (s : zstmt) : Prop :=
  match s with
  | ZIf _ _ _ => disj (defs s) Dom /\ NoDup (defs s)
  | ZEmbed xs _ es => disj xs Dom \/ disj xs (evarss es)
  | _ => True
  end.
Fixpoint anews (Dom : list ident) (l : list zstmt) : Prop := match l with [] => True | s :: r => anew Dom s /\ anews (defs s ++ Dom) r end.
Lemma once_anews : forall l Dom, NoDup (defss l) -> disj (defss l) Dom -> anews Dom l.
Proof.
  induction l as [|s r IH]; intros Dom N D; [exact I|]. cbn [defss flat_map] in *. fold (defss r) in *. apply NoDup_app_inv in N as [N1 [N2 N3]]. assert (D1 : disj (defs s) Dom) by (intros x Hx; apply D, in_or_app; auto).
  split; [destruct s; try exact I; [split; assumption|left; exact D1]|]. apply IH; [exact N2|]. intros x Hx Hy. apply in_app_or in Hy as [Hy|Hy]; [exact (N3 x Hy Hx)|]. apply (D x); [apply in_or_app; auto|exact Hy].
Qed.
Lemma cst_ok_lit : forall C rho, cst_ok C rho -> cst_lit C.
Proof. intros C rho H x c E. apply (H x c E). Qed.
Lemma cdels_keep : forall xs C y c, cdels C xs y = Some c -> C y = Some c /\ ~ In y xs.
Proof.
  unfold cdels. induction xs as [|x xs IH]; intros C y c H; cbn [fold_left] in H; [auto|]. apply IH in H as [H1 H2]. unfold cdel in H1. destruct (Z.eqb_spec y x); [discriminate H1|]. split; [exact H1|]. intros [X|X]; congruence.
Qed.
Lemma cdels_out : forall xs C y, ~ In y xs -> cdels C xs y = C y.
Proof.
  unfold cdels. induction xs as [|x xs IH]; intros C y H; cbn [fold_left]; [reflexivity|]. rewrite IH by (intros X; apply H; right; exact X). unfold cdel. destruct (Z.eqb_spec y x) as [->|]; [|reflexivity]. exfalso. apply H. left. reflexivity.
Qed.
(** the arguments of a built-in call read identifiers without a known constant *)
Lemma embed_none : forall xs es es' C Dom y, cst_lit C -> (forall x c, C x = Some c -> In x Dom) -> disj xs Dom \/ disj xs (evarss es) -> mapO (prop (cdels C xs)) es = Some es' -> In y (evarss es') -> C y = None.
Proof.
  intros xs es es' C Dom y L K D E Y. assert (L' : cst_lit (cdels C xs)) by (intros x c H; apply cdels_keep in H as [H _]; eauto). pose proof (props_none _ _ _ _ L' E Y) as N.
  destruct (in_dec Z.eq_dec y xs) as [I|I]; [|rewrite cdels_out in N by exact I; exact N]. destruct D as [D|D]; [|exfalso; apply (D y I); eapply props_vars; eauto].
  destruct (C y) as [c|] eqn:Ec; [|reflexivity]. exfalso. apply (D y I). eauto.
Qed.
Definition ifok (nb : bool) (s : zstmt) : Prop := match s with ZIf _ _ _ => noret s /\ (nb = true -> nolog s) | _ => True end.
Definition good (nb : bool) (P : cenv -> option (cenv * list zstmt)) (ds : list ident) (fr : list ident -> Prop) (ty : senv -> senv -> Prop) (run : outs_s -> option outs_s) : Prop :=
  forall S S1 C Dom o o1, ty S S1 -> src S C Dom o -> fr Dom -> run o = Some o1 ->
  exists C' l', P C = Some (C', l') /\ src S1 C' (ds ++ Dom) o1 /\ incl (defss l') ds /\
    forall D o', tgt nb C D o o' -> incl D Dom -> reads_oks D l' = true -> exists o1', sem_stmts o' l' = Some o1' /\ tgt nb C' (defss l' ++ D) o1 o1'.

Lemma good_stmts_of : forall nb l, Forall (fun s => good nb (fun C => prop_stmt C s) (defs s) (fun Dom => anew Dom s) (fun S S1 => sty_stmt S s S1) (fun o => sem_stmt o s)) l ->
  good nb (fun C => prop_stmts C l) (defss l) (fun Dom => anews Dom l) (fun S S1 => sty_stmts S l S1) (fun o => sem_stmts o l).
Proof.
  intros nb l H. induction H as [|s r Hs Hr IH]; intros S S1 C Dom o o1 T Hsrc Hf E; cbn [sem_stmts] in E.
  - injection E as <-. inversion T; subst. exists C, []. split; [reflexivity|]. split; [exact Hsrc|]. split; [apply incl_refl|]. intros D o' Ht _ _. exists o'. split; [reflexivity|exact Ht].
  - destruct (sem_stmt o s) as [o2|] eqn:E2; [|discriminate E]. inversion T as [|? ? ? S2 ? T1 T2]; subst. cbn [defss flat_map] in *. fold (defss r) in *.
    cbn [anews] in Hf. destruct Hf as [Hf1 Hf2].
    destruct (Hs S S2 C Dom o o2) as [C2 [l2 [A1 [A2 [A3 A4]]]]]; auto.
    destruct (IH S2 S1 C2 (defs s ++ Dom) o2 o1) as [C3 [l3 [B1 [B2 [B3 B4]]]]]; auto.
    exists C3, (l2 ++ l3). cbn [prop_stmts]. rewrite A1. cbn [obind fst snd]. rewrite B1. split; [reflexivity|].
    split; [|split].
    + destruct B2 as [X [Y Z]]. split; [exact X|]. split; [exact Y|]. intros x c Hc. apply Z in Hc. rewrite !in_app_iff in *. tauto.
    + rewrite defss_app. apply incl_app; [apply incl_appl; auto|apply incl_appr; auto].
    + intros D o' Ht Hi Hc. apply reads_oks_app in Hc as [Hc1 Hc2]. destruct (A4 D o' Ht Hi Hc1) as [o2' [F1 F2]].
      destruct (B4 (defss l2 ++ D) o2' F2) as [o1' [G1 G2]]; auto. { apply incl_app; [apply incl_appl; auto|apply incl_appr; auto]. }
      exists o1'. rewrite sem_stmts_app, F1. split; [exact G1|]. destruct G2 as [G2 G3]. split; [|exact G3]. intros x Hx. apply G2. rewrite defss_app, !in_app_iff in *. tauto.
Qed.
Lemma keeps_list : forall es ts S C rho vs, Forall2 (has_ty S) es ts -> env_tr S rho -> cst_ok C rho -> sem_list rho es = Some vs ->
  exists es', mapO (prop C) es = Some es' /\ sem_list rho es' = Some vs.
Proof.
  intros es ts S C rho vs H He HC E. apply mapO_keeps; [|exact E]. clear E. induction H; constructor; auto. intros v Ev. eapply prop_ok; eauto.
Qed.
(* leaving out a branch *)
Lemma skip_ok : forall nb l S S1 C Dom o o1, sty_stmts S l S1 -> src S C Dom o -> disj (defss l) Dom -> Forall noret l -> (nb = true -> Forall nolog l) -> sem_stmts o l = Some o1 ->
  src S1 C (defss l ++ Dom) o1 /\ forall D o', tgt nb C D o o' -> incl D Dom -> tgt nb C D o1 o'.
Proof.
  intros nb l S S1 C Dom o o1 T [H1 [H2 H3]] Hd Hr Hl E. destruct (frame_stmts _ _ _ Hr E) as [F1 [F2 [t [F3 F4]]]]. split.
  - split; [eapply sem_stmts_tr; eauto|]. split; [|intros x c Hc; apply in_or_app; right; eauto]. intros x c Hc. destruct (H2 x c Hc) as [L V]. split; [exact L|].
    rewrite F1; [|intros Hx; apply (Hd x Hx); eauto]. rewrite <- V. apply sem_agree. intros y Hy. destruct c; try discriminate L; destruct Hy.
  - intros D o' [G1 [G2 G3]] Hi. split; [|split; [congruence|]].
    + intros x Hx Hn. rewrite G1, F1; auto. intros Hy. apply (Hd x Hy). apply Hi. exact Hx.
    + rewrite F3. destruct nb; cbn [logrel] in *; [rewrite F4, app_nil_r; auto|apply sublog_ext; exact G3].
Qed.
Lemma tgt_sub : forall nb C D D' o o', incl D' D -> tgt nb C D o o' -> tgt nb C D' o o'.
Proof. intros nb C D D' o o' I [A B]. split; auto. Qed.
Lemma const_val : forall C rho x c, cst_ok C rho -> C x = Some c -> forall rho', sem rho' c = rho x.
Proof. intros C rho x c H E rho'. destruct (H x c E) as [L <-]. apply sem_agree. intros y Hy. destruct c; try discriminate L; destruct Hy. Qed.

Lemma good_stmt : forall nb s, ifok nb s -> good nb (fun C => prop_stmt C s) (defs s) (fun Dom => anew Dom s) (fun S S1 => sty_stmt S s S1) (fun o => sem_stmt o s).
Proof.
  intros nb s. induction s using zstmt_ind'; intros Hok S S1 C Dom o o1 T Hsrc Hf E; pose proof Hsrc as [He [HC HD]]; pose proof (cst_ok_lit _ _ HC) as HL; inversion T; subst.
  - cbn [sem_stmt] in E. destruct (sem_list (os_env o) es) as [vs|] eqn:Ev; [|discriminate E]. injection E as <-.
    destruct (keeps_list es ts S1 C (os_env o) vs) as [es' [M1 M2]]; auto. exists C, [ZReturn es']. cbn [prop_stmt]. rewrite M1. split; [reflexivity|]. split; [exact Hsrc|]. split; [apply incl_refl|].
    intros D o' [G1 [G2 G3]] Hi Hc. cbn [reads_oks reads_ok] in Hc. rewrite andb_true_r in Hc. apply inclb_ok in Hc. cbn [sem_stmts sem_stmt].
    rewrite (sem_list_agree es' (os_env o)), M2 by (intros x Hx; apply G1; [apply Hc, Hx|exact (props_none _ _ _ _ HL M1 Hx)]). eexists. split; [reflexivity|]. split; [exact G1|split; [reflexivity|exact G3]].
  - cbn [sem_stmt] in E. destruct (sem (os_env o) e) as [v|] eqn:Ev; [|discriminate E]. injection E as <-.
    assert (He1 : env_tr (supd S x t) (upd_s (os_env o) x v)) by (apply env_tr_upd; auto; eapply sem_vtr; eauto).
    destruct (prop_ok e S C (os_env o) t v) as [e' [P1 P2]]; auto. cbn [prop_stmt]. rewrite P1. cbn [obind].
    destruct (is_const e') eqn:Ic.
    + exists (cadd C x e'), []. split; [reflexivity|]. split; [|split; [intros y []|]].
      * split; [exact He1|]. split.
        -- intros y c Hc. unfold cadd in Hc. cbn [os_env]. unfold upd_s at 2. destruct (Z.eqb_spec y x) as [->|N].
           ++ injection Hc as <-. split; [exact Ic|]. rewrite <- P2. apply sem_agree. intros z Hz. destruct e'; try discriminate Ic; destruct Hz.
           ++ destruct (HC y c Hc) as [L _]. split; [exact L|]. apply (const_val C (os_env o)); auto.
        -- intros y c Hc. unfold cadd in Hc. destruct (Z.eqb_spec y x) as [->|N]; [left; auto|right; eauto].
      * intros D o' [G1 [G2 G3]] Hi _. exists o'. split; [reflexivity|]. split; [|auto]. intros y Hy Hn. unfold cadd in Hn. cbn [os_env]. unfold upd_s. destruct (Z.eqb_spec y x) as [->|N]; [discriminate Hn|apply G1; [exact Hy|exact Hn]].
    + exists (cdel C x), [ZDef x e']. split; [reflexivity|]. split; [|split; [apply incl_refl|]].
      * split; [exact He1|]. split.
        -- intros y c Hc. unfold cdel in Hc. cbn [os_env]. unfold upd_s at 2. destruct (Z.eqb_spec y x) as [->|N]; [discriminate Hc|].
           destruct (HC y c Hc) as [L _]. split; [exact L|]. apply (const_val C (os_env o)); auto.
        -- intros y c Hc. unfold cdel in Hc. destruct (Z.eqb_spec y x) as [->|N]; [discriminate Hc|right; eauto].
      * intros D o' [G1 [G2 G3]] Hi Hc. cbn [reads_oks reads_ok] in Hc. rewrite andb_true_r in Hc. apply inclb_ok in Hc. cbn [sem_stmts sem_stmt].
        rewrite (sem_agree e' (os_env o)), P2 by (intros y Hy; apply G1; [apply Hc, Hy|exact (prop_none _ _ _ _ HL P1 Hy)]). eexists. split; [reflexivity|]. split; [|split; [exact G2|exact G3]].
        intros y Hy Hn. unfold cdel in Hn. cbn [os_env]. unfold upd_s. destruct (Z.eqb_spec y x); [reflexivity|]. apply G1; [|exact Hn]. cbn in Hy. destruct Hy; [congruence|auto].
  - rewrite sem_if in E. destruct (sem (os_env o) c) as [[|cb|]|] eqn:Ec; try discriminate E. destruct (sem_stmts o a) as [o2|] eqn:E2; [|discriminate E].
    cbn [ifok noret nolog] in Hok. rewrite !noret_go, !nolog_go in Hok. destruct Hok as [[R1 R2] L].
    assert (La : nb = true -> Forall nolog a) by (intros X; apply L; auto). assert (Lb : nb = true -> Forall nolog b) by (intros X; apply L; auto).
    assert (Ga : good nb (fun C => prop_stmts C a) (defss a) (fun Dom => anews Dom a) (fun S S1 => sty_stmts S a S1) (fun o => sem_stmts o a)).
    { apply good_stmts_of. clear - H R1 La. rewrite Forall_forall in *. intros s Hs. apply H; auto. destruct s; try exact I; split; [apply (R1 _ Hs)|]; intros X; exact (La X _ Hs). }
    assert (Gb : good nb (fun C => prop_stmts C b) (defss b) (fun Dom => anews Dom b) (fun S S1 => sty_stmts S b S1) (fun o => sem_stmts o b)).
    { apply good_stmts_of. clear - H0 R2 Lb. rewrite Forall_forall in *. intros s Hs. apply H0; auto. destruct s; try exact I; split; [apply (R2 _ Hs)|]; intros X; exact (Lb X _ Hs). }
    cbn [anew] in Hf. destruct Hf as [Hd Hn]. cbn [defs] in *. rewrite !defs_go in *. apply NoDup_app_inv in Hn as [Hn1 [Hn2 Hn3]].
    assert (Da : disj (defss a) Dom) by (intros x Hx; apply Hd, in_or_app; auto). assert (Db : disj (defss b) Dom) by (intros x Hx; apply Hd, in_or_app; auto).
    assert (Dba : disj (defss b) (defss a ++ Dom)). { intros x Hx Hy. apply in_app_or in Hy as [Hy|Hy]; [exact (Hn3 x Hy Hx)|exact (Db x Hx Hy)]. }
    assert (Fa : anews Dom a) by (apply once_anews; assumption). assert (Fb : anews (defss a ++ Dom) b) by (apply once_anews; assumption).
    destruct (prop_ok c S C (os_env o) PB_ (VB cb)) as [c' [P1 P2]]; auto. 
    assert (Sw : forall x S C o, src S C (defss b ++ x) o -> x = defss a ++ Dom -> src S C ((defss a ++ defss b) ++ Dom) o).
    { intros x S' C' o3 [X [Y Z]] ->. split; [exact X|]. split; [exact Y|]. intros y c0 Hc. apply Z in Hc. rewrite !in_app_iff in *. tauto. }
    cbn beta. rewrite prop_if, P1. cbn [obind]. destruct (isb (bconst c') true) eqn:B1; [|destruct (isb (bconst c') false) eqn:B2].
    + destruct (Ga S S2 C Dom o o2) as [C2 [l2 [A1 [A2 [A3 A4]]]]]; auto. destruct (skip_ok nb b S2 S1 C2 (defss a ++ Dom) o2 o1) as [K1 K2]; auto.
      exists C2, l2. split; [exact A1|]. split; [eauto|]. split; [apply incl_appl; auto|]. intros D o' Ht Hi Hc. destruct (A4 D o' Ht Hi Hc) as [o1' [F1 F2]]. exists o1'. split; [exact F1|].
      apply K2; [exact F2|]. apply incl_app; [apply incl_appl; auto|apply incl_appr; auto].
    + destruct (skip_ok nb a S S2 C Dom o o2) as [K1 K2]; auto. destruct (Gb S2 S1 C (defss a ++ Dom) o2 o1) as [C2 [l2 [A1 [A2 [A3 A4]]]]]; auto.
      exists C2, l2. split; [exact A1|]. split; [eauto|]. split; [apply incl_appr; auto|]. intros D o' Ht Hi Hc. apply A4; auto. apply incl_appr. auto.
    + destruct (Ga S S2 C Dom o o2) as [C2 [l2 [A1 [A2 [A3 A4]]]]]; auto. destruct (Gb S2 S1 C2 (defss a ++ Dom) o2 o1) as [C3 [l3 [B3 [B4 [B5 B6]]]]]; auto.
      rewrite A1. cbn [obind fst snd]. rewrite B3. cbn [obind fst snd]. exists C3, [ZIf c' l2 l3]. split; [reflexivity|]. split; [eauto|].
      assert (Ed : defss [ZIf c' l2 l3] = defss l2 ++ defss l3) by (cbn [defss flat_map defs]; rewrite !defs_go, app_nil_r; reflexivity). rewrite Ed.
      split; [apply incl_app; [apply incl_appl; auto|apply incl_appr; auto]|]. intros D o' Ht Hi Hc. cbn [reads_oks] in Hc. rewrite andb_true_r, reads_if in Hc.
      apply andb_prop in Hc as [Hc Hc3]. apply andb_prop in Hc as [Hc1 Hc2]. apply inclb_ok in Hc1.
      destruct (A4 D o' Ht Hi Hc2) as [o2' [F1 F2]]. destruct (B6 (defss l2 ++ D) o2' F2) as [o1' [G1 G2]]; auto. { apply incl_app; [apply incl_appl; auto|apply incl_appr; auto]. }
      exists o1'. cbn [sem_stmts]. destruct Ht as [Ht _]. rewrite sem_if, (sem_agree c' (os_env o)), P2, F1, G1 by (intros x Hx; apply Ht; [apply Hc1, Hx|exact (prop_none _ _ _ _ HL P1 Hx)]). split; [reflexivity|].
      eapply tgt_sub; [|exact G2]. intros x Hx. rewrite !in_app_iff in *. tauto.
  - cbn [sem_stmt] in E. destruct (sem (os_env o) e) as [[|[]|]|] eqn:Ev; try discriminate E. injection E as <-. cbn [prop_stmt].
    destruct (prop_ok e S1 C (os_env o) PB_ (VB true)) as [e' [P1 P2]]; auto. rewrite P1. cbn [obind]. destruct (isb (bconst e') true) eqn:B1; [|destruct (isb (bconst e') false) eqn:B2].
    + exists C, []. split; [reflexivity|]. split; [exact Hsrc|]. split; [intros y []|]. intros D o' Ht _ _. exists o'. split; [reflexivity|exact Ht].
    + apply isb_b in B2. subst e'. cbn in P2. discriminate P2.
    + exists C, [ZAssert e' err]. split; [reflexivity|]. split; [exact Hsrc|]. split; [intros y []|]. intros D o' Ht Hi Hc. cbn [reads_oks reads_ok] in Hc. rewrite andb_true_r in Hc. apply inclb_ok in Hc.
      cbn [sem_stmts sem_stmt]. pose proof Ht as [G1 _]. rewrite (sem_agree e' (os_env o)), P2 by (intros y Hy; apply G1; [apply Hc, Hy|exact (prop_none _ _ _ _ HL P1 Hy)]). eexists. split; [reflexivity|exact Ht].
  - cbn [sem_stmt] in E. destruct (sem_list (os_env o) es) as [vs|] eqn:Ev; [|discriminate E]. destruct (sem_embed em vs) as [rs|] eqn:Er; [|discriminate E].
    destruct (Nat.eqb (length xs) (length rs)) eqn:El; [|discriminate E]. injection E as <-.
    assert (Xd : forall y c, cdels C xs y = Some c -> C y = Some c /\ ~ In y xs).
    { intros y c. apply cdels_keep. }
    assert (HC' : cst_ok (cdels C xs) (os_env o)) by (intros y c Hc; apply Xd in Hc as [Hc _]; apply HC; exact Hc).
    destruct (keeps_list es (embed_in em) S (cdels C xs) (os_env o) vs) as [es' [M1 M2]]; auto. exists (cdels C xs), [ZEmbed xs em es']. cbn [prop_stmt]. rewrite M1. split; [reflexivity|].
    split; [|split; [cbn; rewrite app_nil_r; apply incl_refl|]].
    + split; [apply env_tr_upds; auto; eapply sem_embed_vtr; [|exact Er]; eapply sem_list_vtr; eauto|]. split.
      * intros y c Hc. pose proof (Xd _ _ Hc) as [Hc1 Hc2]. destruct (HC y c Hc1) as [L _]. split; [exact L|]. cbn [os_env]. rewrite upds_s_other by exact Hc2. apply (const_val C (os_env o)); auto.
      * intros y c Hc. apply Xd in Hc as [Hc _]. apply in_or_app. right. eauto.
    + intros D o' [G1 [G2 G3]] Hi Hc. cbn [reads_oks reads_ok] in Hc. rewrite andb_true_r in Hc. apply inclb_ok in Hc. cbn [sem_stmts sem_stmt].
      rewrite (sem_list_agree es' (os_env o)), M2, Er, El by (intros x Hx; apply G1; [apply Hc, Hx|exact (embed_none xs es es' C Dom x HL HD Hf M1 Hx)]). eexists. split; [reflexivity|]. split; [|split; [exact G2|exact G3]].
      cbn [os_env defss flat_map defs]. rewrite app_nil_r. apply Nat.eqb_eq in El. clear - G1 El.
      intros y Hy Hn. destruct (in_dec Z.eq_dec y xs) as [I|N]; [|rewrite !upds_s_other by exact N; apply G1; [apply in_app_or in Hy as [Hy|Hy]; [contradiction|exact Hy]|rewrite cdels_out in Hn by exact N; exact Hn]].
      clear Hy G1 Hn. revert rs El I. generalize (os_env o), (os_env o'). induction xs as [|x xs IH]; intros r1 r2 rs El I; [destruct I|]. destruct rs as [|v rs]; [discriminate El|]. cbn [upds_s].
      destruct (in_dec Z.eq_dec y xs) as [J|J]; [apply IH; [cbn in El; lia|exact J]|]. rewrite !upds_s_other by exact J. unfold upd_s. destruct I as [->|I]; [rewrite Z.eqb_refl; reflexivity|contradiction].
  - cbn [sem_stmt] in E. destruct (sem_list (os_env o) es) as [vs|] eqn:Ev; [|discriminate E]. injection E as <-.
    destruct (keeps_list es ts S1 C (os_env o) vs) as [es' [M1 M2]]; auto. exists C, [ZLog f es']. cbn [prop_stmt]. rewrite M1. split; [reflexivity|]. split; [exact Hsrc|]. split; [apply incl_refl|].
    intros D o' [G1 [G2 G3]] Hi Hc. cbn [reads_oks reads_ok] in Hc. rewrite andb_true_r in Hc. apply inclb_ok in Hc. cbn [sem_stmts sem_stmt].
    rewrite (sem_list_agree es' (os_env o)), M2 by (intros x Hx; apply G1; [apply Hc, Hx|exact (props_none _ _ _ _ HL M1 Hx)]). eexists. split; [reflexivity|]. split; [exact G1|split; [exact G2|]]. cbn [os_log].
    destruct nb; cbn [logrel] in *; [rewrite G3; reflexivity|apply sublog_snoc; exact G3].
Qed.

(** ** Programs *)
(** every identifier is defined once *)
Definition ssa_prog (p : zprog) : Prop := NoDup (map zpid (zargs p) ++ defss (zbody p)).
(** an identifier may be defined again, but not by a conditional statement, nor by a built-in call which reads it *)
Definition fresh_prog (p : zprog) : Prop := anews (map zpid (zargs p)) (zbody p).
Lemma ssa_fresh : forall p, ssa_prog p -> fresh_prog p.
Proof. intros p H. unfold ssa_prog in H. apply NoDup_app_inv in H as [_ [N D]]. apply once_anews; [exact N|]. intros x X Y. exact (D x Y X). Qed.
(** no log statement inside an if *)
Definition logs_outside_ifs (p : zprog) : Prop := Forall (fun s => match s with ZIf _ _ _ => nolog s | _ => True end) (zbody p).
Lemma ends_ifok : forall p nb, ends_return p -> (nb = true -> logs_outside_ifs p) -> Forall (ifok nb) (zbody p).
Proof.
  intros p nb [ss [es [E [_ R]]]] L. unfold logs_outside_ifs in L. rewrite E in *. apply Forall_forall. intros s Hs. destruct s; cbn [ifok]; auto.
  apply in_app_or in Hs as [Hs|Hs]; [|destruct Hs as [Hs|[]]; discriminate Hs]. rewrite Forall_forall in R. split; [apply (R _ Hs)|]. intros X. specialize (L X). rewrite Forall_forall in L. apply (L (ZIf c ss1 ss2)). apply in_or_app. auto.
Qed.
Theorem propagate_sem : forall nb p inputs rets logs, sty_prog p -> ends_return p -> fresh_prog p -> (nb = true -> logs_outside_ifs p) ->
  sem_prog p inputs = Some (rets, logs) ->
  exists p', propagate p = Some p' /\ zargs p' = zargs p /\ zret p' = zret p /\
    (closed_prog p' = true -> exists logs', sem_prog p' inputs = Some (rets, logs') /\ logrel nb logs' logs).
Proof.
  intros nb p inputs rets logs [_ [[S1 T] _]] He Hs HL E. unfold sem_prog in E. destruct (bind_params (fun _ => None) (zargs p) inputs) as [rho|] eqn:B; [|discriminate E].
  destruct (sem_stmts (mkOuts rho [] []) (zbody p)) as [o|] eqn:Eo; [|discriminate E]. injection E as <- <-.
  assert (G : good nb (fun C => prop_stmts C (zbody p)) (defss (zbody p)) (fun Dom => anews Dom (zbody p)) (fun S S1 => sty_stmts S (zbody p) S1) (fun o => sem_stmts o (zbody p))).
  { apply good_stmts_of. pose proof (ends_ifok p nb He HL) as H. rewrite Forall_forall in *. intros s Hin. apply good_stmt. auto. }
  destruct (G (sty_params (zargs p)) S1 (fun _ => None) (map zpid (zargs p)) (mkOuts rho [] []) o) as [C' [l' [A1 [A2 [A3 A4]]]]]; auto.
  { split; [|split; [intros x c H; discriminate H|intros x c H; discriminate H]]. eapply bind_params_tr; [|exact B]. intros x t v H. discriminate H. }
  exists (mkZProg (zargs p) l' (zret p)). unfold propagate. rewrite A1. cbn [obind snd zargs zret]. split; [reflexivity|]. split; [reflexivity|]. split; [reflexivity|].
  intros Hc. unfold closed_prog in Hc. cbn [zargs zbody] in Hc. destruct (A4 (map zpid (zargs p)) (mkOuts rho [] [])) as [o1' [F1 [F2 [F3 F4]]]]; auto.
  { split; [auto|]. split; [auto|]. destruct nb; cbn; [reflexivity|constructor]. } { apply incl_refl. }
  exists (os_log o1'). unfold sem_prog. cbn [zargs zbody]. rewrite B, F1, F3. split; [reflexivity|exact F4].
Qed.
End ZPropStmt.
