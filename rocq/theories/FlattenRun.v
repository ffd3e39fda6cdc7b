(** Proofs about Flatten.v: running the flattened statements follows running the typed ones. *)
From Coq Require Import String Ascii.
From Coq Require Import ZArith NArith List Bool Lia Ring.
From Verif Require Import PField Interp Bits Zir CgProg UintOpt Str Abi Typed Flatten FlattenOps FlattenSim.
Import ListNotations.
Open Scope Z_scope.

Scheme tty_mut := Minimality for tty Sort Prop
  with ttys_mut := Minimality for ttys Sort Prop
  with tsty_mut := Minimality for tsty Sort Prop
  with tstys_mut := Minimality for tstys Sort Prop.
Combined Scheme typed_ind from tty_mut, ttys_mut, tsty_mut, tstys_mut.

Section Run.
Context {PF : PrimeField}.

(** the components of a value have the kinds of the components of its type *)
Lemma flat_val_kinds : forall t v, has_type v t -> Forall2 (fun l u => kok (lkind l) u) (leaves t) (flat_val v).
Proof.
  induction t as [| |w|ty n IH|ts IH|ms IH|] using cty_ind'; intros v H; destruct v; try (cbn in H; contradiction).
  1-3: constructor; [exact I|constructor].
  - apply type_array in H as [L H]. subst n. cbn [leaves flat_val]. induction H as [|v l Hv Hl IHl]; [constructor|]. cbn [length repeat concat flat_map]. apply Forall2_app; [apply IH; exact Hv|exact IHl].
  - apply type_tuple in H. rewrite leaves_tuple. cbn [flat_val]. revert IH. induction H as [|v t l ts Hv Hl IHl]; intros IH; [constructor|]. inversion IH as [|? ? I1 I2]; subst. cbn [flat_map]. apply Forall2_app; [apply I1; exact Hv|apply IHl; exact I2].
  - apply type_struct in H. rewrite leaves_struct. cbn [flat_val]. revert IH. induction H as [|[k v] [k' t] l ms [_ Hv] Hl IHl]; intros IH; [constructor|]. inversion IH as [|? ? I1 I2]; subst. cbn [flat_map snd] in *. apply Forall2_app; [apply I1; exact Hv|apply IHl; exact I2].
Qed.

Definition zentry (e : entry) : Z * list F := (fst e, flat_map encode (snd e)).
(** the environment of components holds the components of the variables *)
Definition holds (zr : env_s) (x : Z) (t : cty) (v : value_) : Prop := Forall2 (fun p u => zr (name (fst p)) = Some u) (flat_ids (SBase x) t) (flat_val v).
Definition rel (S : tctx) (rho : tenv) (zr : env_s) : Prop := forall x t, S x = Some t -> exists v, rho x = Some v /\ has_type v t /\ holds zr x t v.
Definition touch (D : list Z) (zr zr' : env_s) : Prop := forall s, ~ In (base s) D -> zr' (name s) = zr (name s).
Definition agree (S : tctx) (D : list Z) (zr' zr2 : env_s) : Prop := forall s, S (base s) <> None \/ In (base s) D -> zr2 (name s) = zr' (name s).
Definition fresh (S : tctx) (D : list Z) : Prop := NoDup D /\ forall x, In x D -> S x = None.

Lemma holds_agree : forall zr zr2 x t v, holds zr x t v -> (forall s, base s = x -> zr2 (name s) = zr (name s)) -> holds zr2 x t v.
Proof.
  intros zr zr2 x t v H A. unfold holds in *. assert (B : Forall (fun p => base (fst p) = x) (flat_ids (SBase x) t)) by (apply Forall_forall; intros [s l] I; apply (ids_base _ _ _ _ I)).
  revert B. induction H as [|p u ps us E R IH]; intros B; [constructor|]. pose proof (Forall_inv B) as B1. pose proof (Forall_inv_tail B) as B2. constructor; [rewrite (A _ B1); exact E|apply IH; exact B2].
Qed.
Lemma rel_agree : forall S rho zr zr2, rel S rho zr -> (forall s, S (base s) <> None -> zr2 (name s) = zr (name s)) -> rel S rho zr2.
Proof. intros S rho zr zr2 R A x t E. destruct (R x t E) as [v [V [T H]]]. exists v. split; [exact V|]. split; [exact T|]. apply (holds_agree zr); [exact H|]. intros s <-. apply A. congruence. Qed.
Lemma rel_touch : forall S rho zr zr' D, rel S rho zr -> touch D zr zr' -> fresh S D -> rel S rho zr'.
Proof. intros S rho zr zr' D R T [_ F]. apply (rel_agree S rho zr); [exact R|]. intros s H. apply T. intros I. exact (H (F _ I)). Qed.
Lemma touch_refl : forall D zr, touch D zr zr.
Proof. intros D zr s _. reflexivity. Qed.
Lemma touch_app : forall D E a b c, touch D a b -> touch E b c -> touch (D ++ E) a c.
Proof. intros D E a b c X Y s N. rewrite Y, X; [reflexivity| |]; intros I; apply N, in_or_app; auto. Qed.
Lemma nodup_app_inv : forall A (a b : list A), NoDup (a ++ b) -> NoDup a /\ NoDup b /\ (forall x, In x a -> ~ In x b).
Proof.
  intros A a b. induction a as [|y a IH]; intros N; [split; [constructor|]; split; [exact N|intros x []]|]. cbn in N. inversion N as [|? ? N1 N2]; subst. destruct (IH N2) as [X [Y Z]]. split; [constructor; [intros I; apply N1, in_or_app; auto|exact X]|]. split; [exact Y|].
  intros x [->|I] J; [apply N1, in_or_app; auto|exact (Z x I J)].
Qed.
Lemma fresh_app : forall S D E, fresh S (D ++ E) -> fresh S D /\ fresh S E /\ (forall x, In x D -> ~ In x E).
Proof.
  intros S D E [N F]. apply nodup_app_inv in N as [N1 [N2 N3]]. split; [split; [exact N1|intros x I; apply F, in_or_app; auto]|]. split; [split; [exact N2|intros x I; apply F, in_or_app; auto]|exact N3].
Qed.
Lemma agree_app_l : forall S D E a b c, agree S (D ++ E) b c -> touch E a b -> fresh S E -> (forall x, In x D -> ~ In x E) -> agree S D a c.
Proof.
  intros S D E a b c A T [_ F] Di s H. rewrite A by (destruct H as [H|H]; [left; exact H|right; apply in_or_app; auto]). apply T. intros I. destruct H as [H|H]; [exact (H (F _ I))|exact (Di _ H I)].
Qed.
Lemma agree_app_r : forall S D E b c, agree S (D ++ E) b c -> agree S E b c.
Proof. intros S D E b c A s [H|H]; apply A; [left; exact H|right; apply in_or_app; auto]. Qed.
Lemma agree_refl : forall S D a, agree S D a a.
Proof. intros S D a s _. reflexivity. Qed.

Lemma zconds_ok : forall zr c k xs ys zs a b, zconds c xs ys = Some zs -> sem zr c = Some (VB k) -> Forall2 (rp zr) xs a -> Forall2 (rp zr) ys b -> Forall2 (rp zr) zs (if k then a else b).
Proof.
  intros zr c k xs. induction xs as [|x xs IH]; intros ys zs a b H C A B.
  - destruct ys as [|y ys]; [|discriminate H]. injection H as <-. inversion A; inversion B; subst. destruct k; constructor.
  - destruct ys as [|y ys]; [discriminate H|]. cbn [zconds] in H. destruct (zcond c x y) as [z|] eqn:E; [|discriminate H]. destruct (zconds c xs ys) as [l|] eqn:El; [|discriminate H]. injection H as <-.
    inversion A as [|? u ? us [S1 K1] RA]; inversion B as [|? w ? ws [S2 K2] RB]; subst. specialize (IH _ _ _ _ El C RA RB).
    assert (Q : rp zr z (if k then u else w)).
    { unfold zcond in E. destruct (zkind x), (zkind y); try discriminate E; injection E as <-; destruct u, w; try contradiction; (split; [cbn [sem]; rewrite C, S1, S2; reflexivity|destruct k; exact I]). }
    destruct k; constructor; assumption.
Qed.
Lemma defs_ok : forall x ids zs vs zr zr1 r l, Forall2 (fun _ _ => True) ids vs -> NoDup (map fst ids) -> Forall (fun p : sid * lty => base (fst p) = x) ids ->
  (forall zr2, (forall s, base s <> x -> zr2 (name s) = zr (name s)) -> Forall2 (rp zr2) zs vs) -> (forall s, base s <> x -> zr1 (name s) = zr (name s)) ->
  exists zr', sem_stmts (mkOuts zr1 r l) (defs_zip ids zs) = Some (mkOuts zr' r l) /\ (forall s, ~ In s (map fst ids) -> zr' (name s) = zr1 (name s)) /\ Forall2 (fun p u => zr' (name (fst p)) = Some u) ids vs.
Proof.
  intros x ids zs vs zr zr1 r l H. revert zs zr1. induction H as [|p u ids vs _ H IH]; intros zs zr1 N B E A.
  - exists zr1. split; [reflexivity|]. split; [reflexivity|constructor].
  - pose proof (E zr1 A) as E1. inversion E1 as [|z ? zs' ? [Sz _] R1]; subst. cbn [map] in N. inversion N as [|? ? N1 N2]; subst. pose proof (Forall_inv B) as B1. pose proof (Forall_inv_tail B) as B2. cbv beta in B1.
    destruct (IH zs' (upd_s zr1 (name (fst p)) u) N2 B2) as [zr' [Q1 [Q2 Q3]]].
    + intros zr2 A2. specialize (E zr2 A2). inversion E; assumption.
    + intros s D. unfold upd_s. destruct (name s =? name (fst p)) eqn:En; [|apply A; exact D]. apply Z.eqb_eq, name_inj in En. subst s. congruence.
    + exists zr'. split; [cbn [defs_zip combine map fst snd sem_stmts sem_stmt os_env os_ret os_log]; rewrite Sz; exact Q1|]. assert (O : forall s, s <> fst p -> upd_s zr1 (name (fst p)) u (name s) = zr1 (name s)) by (intros s D; unfold upd_s; destruct (name s =? name (fst p)) eqn:En; [apply Z.eqb_eq, name_inj in En; contradiction|reflexivity]).
      split; [intros s D; cbn [map] in D; rewrite Q2 by (intros I; apply D; right; exact I); apply O; intros ->; apply D; left; reflexivity|].
      constructor; [rewrite Q2 by exact N1; unfold upd_s; rewrite Z.eqb_refl; reflexivity|exact Q3].
Qed.
Lemma upds_ok : forall (ids : list (sid * lty)) vs zr, Forall2 (fun _ _ => True) ids vs -> NoDup (map fst ids) ->
  (forall s, ~ In s (map fst ids) -> upds_s zr (map (fun p => name (fst p)) ids) vs (name s) = zr (name s)) /\ Forall2 (fun p u => upds_s zr (map (fun p => name (fst p)) ids) vs (name (fst p)) = Some u) ids vs.
Proof.
  intros ids vs zr H. revert zr. induction H as [|p u ids vs _ H IH]; intros zr N; [split; [reflexivity|constructor]|]. cbn [map] in N. inversion N as [|? ? N1 N2]; subst. destruct (IH (upd_s zr (name (fst p)) u) N2) as [Q2 Q3]. cbn [map upds_s].
  split; [|constructor; [rewrite Q2 by exact N1; unfold upd_s; rewrite Z.eqb_refl; reflexivity|exact Q3]].
  intros s D. cbn [map] in D. rewrite Q2 by (intros I; apply D; right; exact I). unfold upd_s. destruct (name s =? name (fst p)) eqn:En; [|reflexivity]. apply Z.eqb_eq, name_inj in En. contradiction D. left. symmetry. exact En.
Qed.
Lemma f2_true : forall A B (l : list A) (m : list B), length l = length m -> Forall2 (fun _ _ => True) l m.
Proof. induction l as [|x l IH]; intros [|y m] H; try discriminate H; constructor; [exact I|apply IH; injection H as H; exact H]. Qed.

(** ** Built-in functions *)
Lemma bools_typed : forall l, Forall (fun v => has_type v CBool) l -> exists bs, l = map VBool bs /\ bools l = Some bs /\ flat_map flat_val l = map VB bs.
Proof.
  induction 1 as [|v l T H IH]; [exists []; auto|]. destruct IH as [bs [-> [E F]]]. apply type_bool in T as [b ->]. exists (b :: bs). split; [reflexivity|]. split; [|cbn [flat_map flat_val app map]; rewrite F; reflexivity].
  unfold bools in *. cbn [map opt_list]. cbn. cbn in E. rewrite E. reflexivity.
Qed.
Lemma bools_of_map : forall bs, bools_of (map VB bs) = Some bs.
Proof. induction bs as [|b bs IH]; [reflexivity|]. unfold bools_of in *. cbn. cbn in IH. rewrite IH. reflexivity. Qed.
Lemma bools_map : forall bs, bools (map VBool bs) = Some bs.
Proof. induction bs as [|b bs IH]; [reflexivity|]. unfold bools in *. cbn. cbn in IH. rewrite IH. reflexivity. Qed.
Lemma flat_bools : forall bs, flat_map flat_val (map VBool bs) = map VB bs.
Proof. induction bs as [|b bs IH]; [reflexivity|]. cbn. rewrite IH. reflexivity. Qed.
Lemma typed_bools : forall bs, Forall (fun v => has_type v CBool) (map VBool bs).
Proof. induction bs; constructor; [exact I|assumption]. Qed.
Lemma emb_ok : forall em ts t vs, emb_ty em ts t -> Forall2 has_type vs ts ->
  match sem_emb em vs with Ok v => has_type v t /\ sem_embed em (flat_map flat_val vs) = Some (flat_val v) | Failed => sem_embed em (flat_map flat_val vs) = None | Stuck => True end.
Proof.
  intros em ts t vs Y T. destruct em as [|n|n|n|n]; cbn [emb_ty] in Y.
  - destruct Y as [-> ->]. apply f2_one in T as [v [-> T]]. apply type_field in T as [x ->]. cbn [sem_emb flat_map flat_val app sem_embed]. destruct (Feqb x f0); [split; [exact I|reflexivity]|]. destruct (Feqb x f1); [split; [exact I|reflexivity]|reflexivity].
  - destruct Y as [-> [w [-> En]]]. apply f2_one in T as [v [-> T]]. apply type_uint in T as [x [-> R]]. cbn [sem_emb]. rewrite En, Nat.eqb_refl. cbn [flat_map flat_val app sem_embed]. rewrite flat_bools. split; [|reflexivity]. apply type_array. split; [rewrite map_length; apply bits_be_length|apply typed_bools].
  - destruct Y as [-> [w [-> En]]]. apply f2_one in T as [v [-> T]]. apply type_arr in T as [l [-> [L T]]]. destruct (bools_typed l T) as [bs [-> [E F]]]. cbn [sem_emb]. rewrite E. cbn [of_opt obnd flat_map flat_val]. rewrite app_nil_r, F.
    assert (Lb : length bs = n) by (rewrite map_length in L; exact L). assert (R : 0 <= bv bs < 2 ^ Z.of_nat n) by (rewrite <- Lb; apply bv_range).
    cbn [sem_embed]. rewrite bools_of_map, Lb, Nat.eqb_refl. subst n. destruct w; cbn [uwn] in *; (split; [split; [reflexivity|exact R]|reflexivity]).
  - destruct Y as [-> [-> _]]. apply f2_two in T as [v [u [-> [T1 T2]]]]. apply type_arr in T1 as [l [-> [L1 T1]]], T2 as [m [-> [L2 T2]]]. destruct (bools_typed l T1) as [b1 [-> [E1 F1]]]. destruct (bools_typed m T2) as [b2 [-> [E2 F2]]]. cbn [sem_emb]. rewrite E1, E2. cbn [of_opt obnd flat_map flat_val]. rewrite app_nil_r, F1, F2, <- map_app.
    cbn [sem_embed]. rewrite bools_of_map. rewrite map_length in L1, L2. rewrite app_length, L1, L2. replace (n + n =? 2 * n)%nat with true by (symmetry; apply Nat.eqb_eq; lia). split; [exact I|]. rewrite firstn_app, skipn_app, <- L1, firstn_all, skipn_all, Nat.sub_diag. cbn [firstn skipn app]. rewrite app_nil_r. reflexivity.
  - destruct Y as [-> [-> _]]. apply f2_one in T as [v [-> T]]. apply type_field in T as [x ->]. cbn [sem_emb flat_map flat_val app sem_embed]. destruct (fval x <? 2 ^ Z.of_nat n); [|reflexivity]. cbn [flat_val]. rewrite flat_bools. split; [|reflexivity]. apply type_array. split; [rewrite map_length; apply bits_be_length|apply typed_bools].
Qed.
Lemma emb_good : forall em ts t, emb_ty em ts t -> good_ty t.
Proof. intros [|n|n|n|n] ts t Y; cbn [emb_ty] in Y. - destruct Y as [_ ->]. exact I. - destruct Y as [-> _]. exact I. - destruct Y as [_ [w [-> _]]]. exact I. - destruct Y as [_ [-> _]]. exact I. - destruct Y as [_ [-> _]]. exact I. Qed.

Lemma tlits_ok : forall args ss zss, tflats args = Some (ss, zss) -> lits_ok (map is_tlit args) zss.
Proof.
  unfold tflats. induction args as [|e args IH]; intros ss zss H; cbn [flat_list] in H; [injection H as <- <-; constructor|]. destruct (tflat e) as [[a za]|] eqn:E; [|discriminate H]. destruct (flat_list tflat args) as [[b zb]|] eqn:Eb; [|discriminate H]. cbn [fst snd] in H. injection H as <- <-.
  cbn [map]. constructor; [|apply (IH _ _ eq_refl)]. intros L. destruct e as [t x|[] [|]|c x y|bs e]; try discriminate L. cbn in E. injection E as <- <-. eauto.
Qed.
Lemma dom_tsty : forall S s S1, tsty S s S1 -> forall x, S1 x <> None -> S x <> None \/ In x (sdefs s).
Proof.
  intros S s S1 H x N. destruct H; try (left; exact N); unfold cupd in N; cbn [sdefs]; (destruct (x =? x0) eqn:E; [apply Z.eqb_eq in E; subst; right; apply in_or_app; right; left; reflexivity|left; exact N]).
Qed.
Lemma dom_tstys : forall ss S S1, tstys S ss S1 -> forall x, S1 x <> None -> S x <> None \/ In x (sdefss ss).
Proof.
  induction ss as [|s ss IH]; intros S S1 H x N; inversion H as [|? S2 ? ? ? H1 H2]; subst; [left; exact N|]. destruct (IH _ _ H2 x N) as [X|X]; [|right; apply in_or_app; right; exact X].
  destruct (dom_tsty _ _ _ H1 x X) as [Y|Y]; [left; exact Y|right; apply in_or_app; left; exact Y].
Qed.
Lemma fresh_next : forall S S1 D E, fresh S (D ++ E) -> (forall x, S1 x <> None -> S x <> None \/ In x D) -> fresh S1 E.
Proof.
  intros S S1 D E Fr H. destruct (fresh_app _ _ _ Fr) as [_ [[N F] Di]]. split; [exact N|]. intros x I. destruct (S1 x) as [t|] eqn:Ex; [|reflexivity]. destruct (H x ltac:(congruence)) as [X|X]; [destruct (X (F x I))|destruct (Di x X I)].
Qed.

Definition runs_e (S : tctx) (e : texp) (t : cty) : Prop := forall ss zs rho zr r l, tflat e = Some (ss, zs) -> fresh S (tdefs e) -> rel S rho zr ->
  match teval rho e with
  | Ok (lg, v) => has_type v t /\ exists zr', sem_stmts (mkOuts zr r l) ss = Some (mkOuts zr' r (l ++ map zentry lg)) /\ touch (tdefs e) zr zr' /\ forall zr2, agree S (tdefs e) zr' zr2 -> rps zr2 zs v
  | Failed => sem_stmts (mkOuts zr r l) ss = None
  | Stuck => True
  end.
Definition runs_es (S : tctx) (es : list texp) (ts : list cty) : Prop := forall ss zss rho zr r l, tflats es = Some (ss, zss) -> fresh S (tdefss es) -> rel S rho zr ->
  match tevals rho es with
  | Ok (lg, vs) => Forall2 has_type vs ts /\ exists zr', sem_stmts (mkOuts zr r l) ss = Some (mkOuts zr' r (l ++ map zentry lg)) /\ touch (tdefss es) zr zr' /\ forall zr2, agree S (tdefss es) zr' zr2 -> Forall2 (rps zr2) zss vs
  | Failed => sem_stmts (mkOuts zr r l) ss = None
  | Stuck => True
  end.
Definition runs_s (S : tctx) (s : tstmt) (S1 : tctx) : Prop := forall ss rho zr r l, tflat_stmt s = Some ss -> fresh S (sdefs s) -> rel S rho zr ->
  match texec rho s with
  | Ok (lg, rho') => exists zr', sem_stmts (mkOuts zr r l) ss = Some (mkOuts zr' r (l ++ map zentry lg)) /\ touch (sdefs s) zr zr' /\ rel S1 rho' zr'
  | Failed => sem_stmts (mkOuts zr r l) ss = None
  | Stuck => True
  end.
Definition runs_ss (S : tctx) (ss : list tstmt) (S1 : tctx) : Prop := forall zs rho zr r l, tflat_stmts ss = Some zs -> fresh S (sdefss ss) -> rel S rho zr ->
  match texecs rho ss with
  | Ok (lg, rho') => exists zr', sem_stmts (mkOuts zr r l) zs = Some (mkOuts zr' r (l ++ map zentry lg)) /\ touch (sdefss ss) zr zr' /\ rel S1 rho' zr'
  | Failed => sem_stmts (mkOuts zr r l) zs = None
  | Stuck => True
  end.
Lemma sem_if1 : forall o z a b v, sem (os_env o) z = Some (VB v) -> sem_stmts o (match a, b with [], [] => [] | _, _ => [ZIf z a b] end) = sem_stmts o (a ++ b).
Proof.
  intros o z a b v H. assert (G : sem_stmts o [ZIf z a b] = sem_stmts o (a ++ b)).
  { cbn [sem_stmts]. rewrite sem_if, H, sem_stmts_app. destruct (sem_stmts o a) as [o1|]; [|reflexivity]. destruct (sem_stmts o1 b); reflexivity. }
  destruct a; [destruct b; [reflexivity|exact G]|exact G].
Qed.

(** unfolding *)
Lemma u_fblock : forall bs e, tflat (TBlock bs e) = match tflat_stmts bs, tflat e with Some a, Some (b, zs) => Some (a ++ b, zs) | _, _ => None end.
Proof. reflexivity. Qed.
Lemma u_fdef : forall x t e, tflat_stmt (TDef x t e) = match tflat e with Some (ss, zs) => if (length (flat_ids (SBase x) t) =? length zs)%nat then Some (ss ++ defs_zip (flat_ids (SBase x) t) zs) else None | None => None end.
Proof. reflexivity. Qed.
Lemma u_fassert : forall e err, tflat_stmt (TAssert e err) = match tflat e with Some (ss, zs) => match popE zs with Some z => Some (ss ++ [ZAssert z err]) | None => None end | None => None end.
Proof. reflexivity. Qed.
Lemma u_femb : forall x t em args, tflat_stmt (TEmb x t em args) = match tflats args with Some (ss, zss) => Some (ss ++ [ZEmbed (map (fun p => name (fst p)) (flat_ids (SBase x) t)) em (concat zss)]) | None => None end.
Proof. reflexivity. Qed.
Lemma u_flog : forall fmt args, tflat_stmt (TLog fmt args) = match tflats args with Some (ss, zss) => Some (ss ++ [ZLog fmt (concat zss)]) | None => None end.
Proof. reflexivity. Qed.
Lemma u_eblock : forall rho ss e, teval rho (TBlock ss e) = obnd (texecs rho ss) (fun a => obnd (teval (snd a) e) (fun b => Ok (fst a ++ fst b, snd b))).
Proof. reflexivity. Qed.
Lemma u_edef : forall rho x t e, texec rho (TDef x t e) = obnd (teval rho e) (fun a => Ok (fst a, tupd rho x (snd a))).
Proof. reflexivity. Qed.
Lemma u_eassert : forall rho e err, texec rho (TAssert e err) = obnd (teval rho e) (fun a => match snd a with VBool true => Ok (fst a, rho) | VBool false => Failed | _ => Stuck end).
Proof. reflexivity. Qed.
Lemma u_eemb : forall rho x t em args, texec rho (TEmb x t em args) = obnd (tevals rho args) (fun a => obnd (sem_emb em (snd a)) (fun v => Ok (fst a, tupd rho x v))).
Proof. reflexivity. Qed.
Lemma u_elog : forall rho fmt args, texec rho (TLog fmt args) = obnd (tevals rho args) (fun a => Ok (fst a ++ [(fmt, snd a)], rho)).
Proof. reflexivity. Qed.
Lemma u_dblock : forall ss e, tdefs (TBlock ss e) = sdefss ss ++ tdefs e.
Proof. reflexivity. Qed.
Lemma u_ddef : forall x t e, sdefs (TDef x t e) = tdefs e ++ [x].
Proof. reflexivity. Qed.
Lemma u_dassert : forall e err, sdefs (TAssert e err) = tdefs e.
Proof. reflexivity. Qed.
Lemma u_demb : forall x t em args, sdefs (TEmb x t em args) = tdefss args ++ [x].
Proof. reflexivity. Qed.
Lemma u_dlog : forall fmt args, sdefs (TLog fmt args) = tdefss args.
Proof. reflexivity. Qed.

Theorem flatten_runs : (forall S e t, tty S e t -> runs_e S e t) /\ (forall S es ts, ttys S es ts -> runs_es S es ts) /\ (forall S s S1, tsty S s S1 -> runs_s S s S1) /\ (forall S ss S1, tstys S ss S1 -> runs_ss S ss S1).
Proof.
  apply typed_ind.
  - (* identifier *)
    intros S t x E ss zs rho zr r l H Fr R. cbn [tflat] in H. injection H as <- <-. cbn [teval]. destruct (R x t E) as [v [V [T Hv]]]. rewrite V. cbn [of_opt obnd]. split; [exact T|]. exists zr. cbn [map]. rewrite app_nil_r. split; [reflexivity|]. split; [apply touch_refl|].
    intros zr2 A. assert (H2 : holds zr2 x t v) by (apply (holds_agree zr); [exact Hv|]; intros s <-; apply A; left; congruence). unfold rps, holds in *. pose proof (flat_val_kinds t v T) as K. rewrite <- (ids_leaves t (SBase x)) in K. clear Hv. revert K.
    induction H2 as [|p u ps us Ep Hps IH]; intros K; [constructor|]. cbn [map] in K. inversion K as [|? ? ? ? K1 K2]; subst. cbn [map]. constructor; [|apply IH; exact K2]. split; [cbn [sem]; exact Ep|exact K1].
  - (* operator *)
    intros S op args ts t _ IH Y ss zs rho zr r l H Fr R. cbn [tflat] in H. destruct (flat_list tflat args) as [[sa zss]|] eqn:E; [|discriminate H]. destruct (comb op zss) as [zs'|] eqn:Ec; [|discriminate H]. injection H as <- <-.
    cbn [tdefs] in *. specialize (IH sa zss rho zr r l E Fr R). cbn [teval]. unfold tevals in IH. destruct (teval_list (teval rho) args) as [[lg vs]| |]; cbn [obnd]; [|exact IH|exact I]. destruct IH as [T [zr' [X [To A]]]]. cbn [fst snd].
    pose proof (tlits_ok _ _ _ E) as Li. pose proof (comb_ok op ts t vs zss zs' zr' (map is_tlit args) Y T (A zr' (agree_refl _ _ _)) Li Ec) as Q. destruct (sem_op op (map is_tlit args) vs) as [v| |] eqn:Es; cbn [obnd]; [|contradiction|exact I].
    split; [apply Q|]. exists zr'. split; [exact X|]. split; [exact To|]. intros zr2 A2. pose proof (comb_ok op ts t vs zss zs' zr2 (map is_tlit args) Y T (A zr2 A2) Li Ec) as Q2. rewrite Es in Q2. apply Q2.
  - (* conditional *)
    intros S c x y t _ IHc _ IHx _ IHy ss zs rho zr r l H Fr R. cbn [tflat] in H. destruct (tflat c) as [[sc zc]|] eqn:Ec; [|discriminate H]. destruct (tflat x) as [[sx zx]|] eqn:Ex; [|discriminate H]. destruct (tflat y) as [[sy zy]|] eqn:Ey; [|discriminate H].
    destruct (popE zc) as [z|] eqn:Ep; [|discriminate H]. destruct (zconds z zx zy) as [zs'|] eqn:Ez; [|discriminate H]. injection H as <- <-. cbn [tdefs] in *. destruct (fresh_app _ _ _ Fr) as [Fc [Fxy Dc]]. destruct (fresh_app _ _ _ Fxy) as [Fx [Fy Dx]].
    cbn [teval]. rewrite sem_stmts_app. specialize (IHc sc zc rho zr r l Ec Fc R). destruct (teval rho c) as [[lc vc]| |]; cbn [obnd]; [|rewrite IHc; reflexivity|exact I]. destruct IHc as [Tc [zr1 [X1 [To1 A1]]]]. rewrite X1. apply type_bool in Tc as [k ->].
    assert (Zc : forall zr2, agree S (tdefs c) zr1 zr2 -> sem zr2 z = Some (VB k)). { intros zr2 A. specialize (A1 zr2 A). apply f2_one in A1 as [z' [-> [Sz _]]]. rewrite pop_one in Ep. injection Ep as ->. exact Sz. }
    rewrite (sem_if1 _ z sx sy k) by (apply Zc; apply agree_refl). rewrite sem_stmts_app. assert (R1 : rel S rho zr1) by (apply (rel_touch _ _ zr _ (tdefs c)); assumption).
    specialize (IHx sx zx rho zr1 r (l ++ map zentry lc) Ex Fx R1). destruct (teval rho x) as [[lx vx]| |]; cbn [obnd]; [|rewrite IHx; reflexivity|exact I]. destruct IHx as [Tx [zr2 [X2 [To2 A2]]]]. rewrite X2. assert (R2 : rel S rho zr2) by (apply (rel_touch _ _ zr1 _ (tdefs x)); assumption).
    specialize (IHy sy zy rho zr2 r ((l ++ map zentry lc) ++ map zentry lx) Ey Fy R2). destruct (teval rho y) as [[ly vy]| |]; cbn [obnd snd fst]; [|exact IHy|exact I]. destruct IHy as [Ty [zr3 [X3 [To3 A3]]]].
    split; [destruct k; assumption|]. exists zr3. split; [rewrite X3, !map_app, !app_assoc; reflexivity|]. split; [apply (touch_app _ _ _ zr1); [exact To1|]; apply (touch_app _ _ _ zr2); assumption|].
    intros zr4 A. assert (Q1 : agree S (tdefs c) zr1 zr4) by (apply (agree_app_l S (tdefs c) (tdefs x ++ tdefs y) zr1 zr3); [exact A|apply (touch_app _ _ _ zr2); assumption|exact Fxy|exact Dc]).
    apply agree_app_r in A. assert (Q2 : agree S (tdefs x) zr2 zr4) by (apply (agree_app_l S (tdefs x) (tdefs y) zr2 zr3); assumption). apply agree_app_r in A.
    unfold rps. pose proof (zconds_ok zr4 z k zx zy zs' _ _ Ez (Zc _ Q1) (A2 _ Q2) (A3 _ A)) as Q. destruct k; exact Q.
  - (* block *)
    intros S S' bs e t Ys IHs _ IHe ss zs rho zr r l H Fr R. rewrite u_fblock in H. destruct (tflat_stmts bs) as [sa|] eqn:Ea; [|discriminate H]. destruct (tflat e) as [[sb zb]|] eqn:Eb; [|discriminate H]. injection H as <- <-. rewrite u_dblock in *. destruct (fresh_app _ _ _ Fr) as [F1 [F2 D]].
    rewrite u_eblock, sem_stmts_app. specialize (IHs sa rho zr r l Ea F1 R). destruct (texecs rho bs) as [[l1 rho1]| |]; cbn [obnd fst snd]; [|rewrite IHs; reflexivity|exact I]. destruct IHs as [zr1 [X1 [To1 R1]]]. rewrite X1.
    assert (F3 : fresh S' (tdefs e)) by (apply (fresh_next S S' (sdefss bs)); [exact Fr|apply (dom_tstys bs); exact Ys]).
    specialize (IHe sb zb rho1 zr1 r (l ++ map zentry l1) Eb F3 R1). destruct (teval rho1 e) as [[l2 v]| |]; cbn [obnd fst snd]; [|exact IHe|exact I]. destruct IHe as [T [zr2 [X2 [To2 A2]]]].
    split; [exact T|]. exists zr2. split; [rewrite X2, map_app, app_assoc; reflexivity|]. split; [apply (touch_app _ _ _ zr1); assumption|].
    intros zr3 A. apply A2. intros s [Q|Q]; apply A; [|right; apply in_or_app; right; exact Q]. destruct (dom_tstys _ _ _ Ys _ Q) as [Q1|Q1]; [left; exact Q1|right; apply in_or_app; left; exact Q1].
  - intros S ss zss rho zr r l H Fr R. unfold tflats in H. cbn [flat_list] in H. injection H as <- <-. cbn. split; [constructor|]. exists zr. rewrite app_nil_r. split; [reflexivity|]. split; [apply touch_refl|constructor].
  - intros S e es t ts _ IHe _ IHr ss zss rho zr r l H Fr R. unfold tflats in H. cbn [flat_list] in H. destruct (tflat e) as [[sa za]|] eqn:Ea; [|discriminate H]. destruct (flat_list tflat es) as [[sb zb]|] eqn:Eb; [|discriminate H]. cbn [fst snd] in H. injection H as <- <-.
    unfold tdefss in *. cbn [tdefs_list] in *. destruct (fresh_app _ _ _ Fr) as [F1 [F2 D]]. unfold tevals. cbn [teval_list]. rewrite sem_stmts_app. specialize (IHe sa za rho zr r l Ea F1 R). destruct (teval rho e) as [[l1 v]| |]; cbn [obnd]; [|rewrite IHe; reflexivity|exact I]. destruct IHe as [T [zr1 [X1 [To1 A1]]]]. rewrite X1.
    assert (R1 : rel S rho zr1) by (apply (rel_touch _ _ zr _ (tdefs e)); assumption). specialize (IHr sb zb rho zr1 r (l ++ map zentry l1) Eb F2 R1). unfold tevals in IHr. destruct (teval_list (teval rho) es) as [[l2 vs]| |]; cbn [obnd fst snd]; [|exact IHr|exact I]. destruct IHr as [Ts [zr2 [X2 [To2 A2]]]].
    split; [constructor; assumption|]. exists zr2. split; [rewrite X2, map_app, app_assoc; reflexivity|]. split; [apply (touch_app _ _ _ zr1); assumption|]. intros zr3 A. constructor; [apply A1; apply (agree_app_l S _ (tdefss es) zr1 zr2); assumption|apply A2; apply agree_app_r in A; exact A].
  - (* definition *)
    intros S x t e G _ IH ss rho zr r l H Fr R. rewrite u_fdef in H. destruct (tflat e) as [[sa za]|] eqn:Ea; [|discriminate H]. destruct (length (flat_ids (SBase x) t) =? length za)%nat eqn:El; [|discriminate H]. injection H as <-. rewrite u_ddef in *. destruct (fresh_app _ _ _ Fr) as [F1 [F2 D]].
    rewrite u_edef, sem_stmts_app. specialize (IH sa za rho zr r l Ea F1 R). destruct (teval rho e) as [[l1 v]| |]; cbn [obnd fst snd]; [|rewrite IH; reflexivity|exact I]. destruct IH as [T [zr1 [X1 [To1 A1]]]]. rewrite X1.
    assert (Sx : S x = None) by (apply F2; left; reflexivity). assert (Dx : ~ In x (tdefs e)) by (intros Q; apply (D x Q); left; reflexivity).
    destruct (defs_ok x (flat_ids (SBase x) t) za (flat_val v) zr1 zr1 r (l ++ map zentry l1)) as [zr' [Q1 [Q2 Q3]]].
    + apply f2_true. rewrite ids_length, (flat_val_length t v T). reflexivity.
    + apply ids_nodup. exact G.
    + apply Forall_forall. intros [s lt] Q. apply (ids_base _ _ _ _ Q).
    + intros zr2 A. apply A1. intros s [Q|Q]; apply A; intros Q'; rewrite Q' in Q; [exact (Q Sx)|exact (Dx Q)].
    + reflexivity.
    + exists zr'. split; [exact Q1|]. assert (O : forall s, base s <> x -> zr' (name s) = zr1 (name s)) by (intros s Q; apply Q2; intros Q'; apply in_map_iff in Q' as [[s' lt] [<- Q']]; apply Q; apply (ids_base _ _ _ _ Q')).
      split; [intros s Q; rewrite O, To1; [reflexivity| |]; [intros Q'; apply Q, in_or_app; left; exact Q'|intros <-; apply Q, in_or_app; right; left; reflexivity]|].
      assert (R1 : rel S rho zr1) by (apply (rel_touch _ _ zr _ (tdefs e)); assumption).
      intros y u Ey. unfold cupd in Ey. unfold tupd. destruct (y =? x) eqn:E; [apply Z.eqb_eq in E; subst y; injection Ey as <-; exists v; split; [reflexivity|]; split; [exact T|exact Q3]|].
      destruct (R1 y u Ey) as [w [W1 [W2 W3]]]. exists w. split; [exact W1|]. split; [exact W2|]. apply (holds_agree zr1); [exact W3|]. intros s <-. apply O. intros Q. rewrite Q, Z.eqb_refl in E. discriminate E.
  - (* assertion *)
    intros S e err _ IH ss rho zr r l H Fr R. rewrite u_fassert in H. destruct (tflat e) as [[sa za]|] eqn:Ea; [|discriminate H]. destruct (popE za) as [z|] eqn:Ep; [|discriminate H]. injection H as <-. rewrite u_dassert in *.
    rewrite u_eassert, sem_stmts_app. specialize (IH sa za rho zr r l Ea Fr R). destruct (teval rho e) as [[l1 v]| |]; cbn [obnd fst snd]; [|rewrite IH; reflexivity|exact I]. destruct IH as [T [zr1 [X1 [To1 A1]]]]. rewrite X1. apply type_bool in T as [b ->].
    specialize (A1 zr1 (agree_refl _ _ _)). apply f2_one in A1 as [z' [-> [Sz _]]]. rewrite pop_one in Ep. injection Ep as ->. cbn [sem_stmts sem_stmt os_env]. rewrite Sz. destruct b; [|reflexivity].
    exists zr1. split; [reflexivity|]. split; [exact To1|]. apply (rel_touch _ _ zr _ (tdefs e)); assumption.
  - (* built-in *)
    intros S x t em args ts _ IH Y ss rho zr r l H Fr R. rewrite u_femb in H. destruct (tflats args) as [[sa zss]|] eqn:Ea; [|discriminate H]. injection H as <-. rewrite u_demb in *. destruct (fresh_app _ _ _ Fr) as [F1 [F2 D]].
    rewrite u_eemb, sem_stmts_app. specialize (IH sa zss rho zr r l Ea F1 R). destruct (tevals rho args) as [[l1 vs]| |]; cbn [obnd fst snd]; [|rewrite IH; reflexivity|exact I]. destruct IH as [T [zr1 [X1 [To1 A1]]]]. rewrite X1.
    assert (Sx : S x = None) by (apply F2; left; reflexivity).
    assert (Z1 : sem_list zr1 (concat zss) = Some (flat_map flat_val vs)) by (apply rp_sem, f2_concat, (A1 zr1 (agree_refl _ _ _))).
    pose proof (emb_ok em ts t vs Y T) as Q. destruct (sem_emb em vs) as [v| |]; cbn [obnd]; [|cbn [sem_stmts sem_stmt os_env]; rewrite Z1, Q; reflexivity|exact I]. destruct Q as [Tv Q].
    assert (Lv : length (flat_ids (SBase x) t) = length (flat_val v)) by (rewrite ids_length, (flat_val_length t v Tv); reflexivity).
    destruct (upds_ok (flat_ids (SBase x) t) (flat_val v) zr1 (f2_true _ _ _ _ Lv) (ids_nodup t _ (emb_good _ _ _ Y))) as [Q2 Q3].
    cbn [sem_stmts sem_stmt os_env os_ret os_log]. rewrite Z1, Q, map_length, Lv, Nat.eqb_refl. exists (upds_s zr1 (map (fun p => name (fst p)) (flat_ids (SBase x) t)) (flat_val v)). split; [reflexivity|].
    set (zr' := upds_s zr1 (map (fun p => name (fst p)) (flat_ids (SBase x) t)) (flat_val v)) in *.
    assert (O : forall s, base s <> x -> zr' (name s) = zr1 (name s)) by (intros s P; apply Q2; intros Q'; apply in_map_iff in Q' as [[s' lt] [<- Q']]; apply P; apply (ids_base _ _ _ _ Q')).
    split; [intros s P; rewrite O, To1; [reflexivity| |]; [intros Q'; apply P, in_or_app; left; exact Q'|intros <-; apply P, in_or_app; right; left; reflexivity]|].
    assert (R1 : rel S rho zr1) by (apply (rel_touch _ _ zr _ (tdefss args)); assumption).
    intros y u Ey. unfold cupd in Ey. unfold tupd. destruct (y =? x) eqn:E; [apply Z.eqb_eq in E; subst y; injection Ey as <-; exists v; split; [reflexivity|]; split; [exact Tv|exact Q3]|].
    destruct (R1 y u Ey) as [w [W1 [W2 W3]]]. exists w. split; [exact W1|]. split; [exact W2|]. apply (holds_agree zr1); [exact W3|]. intros s <-. apply O. intros P. rewrite P, Z.eqb_refl in E. discriminate E.
  - (* log *)
    intros S fmt args ts _ IH ss rho zr r l H Fr R. rewrite u_flog in H. destruct (tflats args) as [[sa zss]|] eqn:Ea; [|discriminate H]. injection H as <-. rewrite u_dlog in *.
    rewrite u_elog, sem_stmts_app. specialize (IH sa zss rho zr r l Ea Fr R). destruct (tevals rho args) as [[l1 vs]| |]; cbn [obnd fst snd]; [|rewrite IH; reflexivity|exact I]. destruct IH as [T [zr1 [X1 [To1 A1]]]]. rewrite X1.
    assert (Z1 : sem_list zr1 (concat zss) = Some (flat_map flat_val vs)) by (apply rp_sem, f2_concat, (A1 zr1 (agree_refl _ _ _))).
    cbn [sem_stmts sem_stmt os_env os_ret os_log]. rewrite Z1. exists zr1. split.
    + rewrite map_app, app_assoc. cbn [map]. do 3 f_equal. unfold zentry. cbn [fst snd]. f_equal. f_equal. clear - T. induction T as [|v t vs ts Tv T IH]; [reflexivity|]. cbn [flat_map]. rewrite map_app, IH, (flat_val_encode t v Tv). reflexivity.
    + split; [exact To1|]. apply (rel_touch _ _ zr _ (tdefss args)); assumption.
  - intros S zs rho zr r l H Fr R. cbn in H. injection H as <-. cbn. exists zr. rewrite app_nil_r. split; [reflexivity|]. split; [apply touch_refl|exact R].
  - intros S S1 S2 s ss Y1 IH1 Y2 IH2 zs rho zr r l H Fr R. unfold tflat_stmts in H. cbn [flat_stmt_list] in H. destruct (tflat_stmt s) as [za|] eqn:Ea; [|discriminate H]. destruct (flat_stmt_list tflat_stmt ss) as [zb|] eqn:Eb; [|discriminate H]. injection H as <-.
    unfold sdefss in *. cbn [tdefs_stmts] in *. destruct (fresh_app _ _ _ Fr) as [F1 [_ D]]. unfold texecs. cbn [texec_list]. rewrite sem_stmts_app. specialize (IH1 za rho zr r l Ea F1 R). destruct (texec rho s) as [[l1 rho1]| |]; cbn [obnd fst snd]; [|rewrite IH1; reflexivity|exact I]. destruct IH1 as [zr1 [X1 [To1 R1]]]. rewrite X1.
    assert (F2 : fresh S1 (sdefss ss)) by (apply (fresh_next S S1 (sdefs s)); [exact Fr|apply dom_tsty; exact Y1]).
    specialize (IH2 zb rho1 zr1 r (l ++ map zentry l1) Eb F2 R1). unfold texecs in IH2. destruct (texec_list texec rho1 ss) as [[l2 rho2]| |]; cbn [obnd fst snd]; [|exact IH2|exact I]. destruct IH2 as [zr2 [X2 [To2 R2]]].
    exists zr2. split; [rewrite X2, map_app, app_assoc; reflexivity|]. split; [apply (touch_app _ _ _ zr1); assumption|exact R2].
Qed.
End Run.
