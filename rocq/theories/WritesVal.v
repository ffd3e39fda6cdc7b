(** Proofs about Writes.v: replacing a part of a value, and its components. *)
From Coq Require Import String Ascii.
From Coq Require Import ZArith NArith List Bool Lia.
From Verif Require Import PField Interp Bits Zir CgProg UintOpt Str Abi Typed Flatten FlattenOps FlattenSim FlattenRun Writes.
Import ListNotations.
Open Scope Z_scope.

Section WritesVal.
Context {PF : PrimeField}.

(** ** Values and lists of components *)
Lemma app_eq_len : forall A (a b c d : list A), a ++ b = c ++ d -> length a = length c -> a = c /\ b = d.
Proof. induction a as [|x a IH]; intros b [|y c] d H L; try discriminate L; [split; [reflexivity|exact H]|]. cbn in H. injection H as -> H. injection L as L. destruct (IH _ _ _ H L) as [-> ->]. auto. Qed.
Lemma flat_inj : forall t v w, has_type v t -> has_type w t -> flat_val v = flat_val w -> v = w.
Proof.
  induction t as [| |w|ty n IH|ts IH|ms IH|] using cty_ind'; intros v u Hv Hu E; destruct v; try (cbn in Hv; contradiction); destruct u; try (cbn in Hu; contradiction).
  - injection E as ->. reflexivity.
  - injection E as ->. reflexivity.
  - cbn in Hv, Hu. destruct Hv as [-> _], Hu as [-> _]. injection E as ->. reflexivity.
  - apply type_array in Hv as [L1 Hv], Hu as [L2 Hu]. f_equal. cbn [flat_val] in E. subst n. revert l0 L2 Hu E. induction Hv as [|v l Tv Hv IHl]; intros [|u m] L2 Hu E; try discriminate L2; [reflexivity|]. inversion Hu as [|? ? Tu Hu']; subst. cbn [flat_map] in E. apply app_eq_len in E as [E1 E2]; [|rewrite (flat_val_length ty v Tv), (flat_val_length ty u Tu); reflexivity]. f_equal; [apply IH; assumption|apply IHl; [injection L2 as L2; exact L2|assumption|exact E2]].
  - apply type_tuple in Hv, Hu. f_equal. cbn [flat_val] in E. revert l0 Hu E IH. induction Hv as [|v t l ts Tv Hv IHl]; intros m Hu E IH; inversion Hu as [|u ? m' ? Tu Hu']; subst; [reflexivity|]. cbn [flat_map] in E. apply app_eq_len in E as [E1 E2]; [|rewrite (flat_val_length t v Tv), (flat_val_length t u Tu); reflexivity]. f_equal; [apply (Forall_inv IH); assumption|apply IHl; [assumption|exact E2|exact (Forall_inv_tail IH)]].
  - apply type_struct in Hv, Hu. f_equal. cbn [flat_val] in E. revert l0 Hu E IH. induction Hv as [|[k v] [k0 t] l ts [K1 Tv] Hv IHl]; intros m Hu E IH; inversion Hu as [|[k2 u] ? m' ? [K2 Tu] Hu']; subst; [reflexivity|]. cbn [fst snd] in *. subst k k2. cbn [flat_map snd] in E. apply app_eq_len in E as [E1 E2]; [|rewrite (flat_val_length t v Tv), (flat_val_length t u Tu); reflexivity]. f_equal; [f_equal; apply (Forall_inv IH); assumption|apply IHl; [assumption|exact E2|exact (Forall_inv_tail IH)]].
Qed.
Definition leaf_ok (l : lty) (u : val) : Prop := match l, u with LF, VF _ | LB, VB _ => True | LU w, VU n => 0 <= n < 2 ^ bits_of w | _, _ => False end.
Lemma flat_leaves : forall t v, has_type v t -> Forall2 leaf_ok (leaves t) (flat_val v).
Proof.
  induction t as [| |w|ty n IH|ts IH|ms IH|] using cty_ind'; intros v H; destruct v; try (cbn in H; contradiction).
  1-2: constructor; [exact I|constructor].
  - cbn in H. destruct H as [-> H]. constructor; [exact H|constructor].
  - apply type_array in H as [L H]. subst n. cbn [leaves flat_val]. induction H as [|v l Hv Hl IHl]; [constructor|]. cbn [length repeat concat flat_map]. apply Forall2_app; [apply IH; exact Hv|exact IHl].
  - apply type_tuple in H. rewrite leaves_tuple. cbn [flat_val]. revert IH. induction H as [|v t l ts Hv Hl IHl]; intros IH; [constructor|]. cbn [flat_map]. apply Forall2_app; [apply (Forall_inv IH); exact Hv|apply IHl; exact (Forall_inv_tail IH)].
  - apply type_struct in H. rewrite leaves_struct. cbn [flat_val]. revert IH. induction H as [|[k v] [k' t] l ms [_ Hv] Hl IHl]; intros IH; [constructor|]. cbn [flat_map snd] in *. apply Forall2_app; [apply (Forall_inv IH); exact Hv|apply IHl; exact (Forall_inv_tail IH)].
Qed.
Lemma f2_split : forall A B (R : A -> B -> Prop) a b l, Forall2 R (a ++ b) l -> exists x y, l = x ++ y /\ Forall2 R a x /\ Forall2 R b y.
Proof. intros A B R a b l H. apply Forall2_app_inv_l in H as [x [y [X [Y E]]]]. exists x, y. auto. Qed.
Lemma flat_exists : forall t, good_ty t -> forall us, Forall2 leaf_ok (leaves t) us -> exists v, has_type v t /\ flat_val v = us.
Proof.
  induction t as [| |w|ty n IH|ts IH|ms IH|] using cty_ind'; intros G us H.
  - inversion H as [|? x ? ? X R]; subst. inversion R; subst. destruct x; try contradiction. eexists (VField _). split; [exact I|reflexivity].
  - inversion H as [|? x ? ? X R]; subst. inversion R; subst. destruct x; try contradiction. eexists (VBool _). split; [exact I|reflexivity].
  - inversion H as [|? x ? ? X R]; subst. inversion R; subst. destruct x; try contradiction. eexists (VUint w _). split; [split; [reflexivity|exact X]|reflexivity].
  - cbn [leaves] in H. assert (Q : exists l, length l = n /\ Forall (fun v => has_type v ty) l /\ flat_map flat_val l = us).
    { revert us H. induction n as [|n IHn]; intros us H; cbn [repeat concat] in H; [inversion H; subst; exists []; split; [reflexivity|]; split; [constructor|reflexivity]|].
      apply f2_split in H as [x [y [-> [X Y]]]]. destruct (IH G x X) as [v [V1 V2]]. destruct (IHn G y Y) as [l [L1 [L2 L3]]]. exists (v :: l). split; [cbn; rewrite L1; reflexivity|]. split; [constructor; assumption|]. cbn [flat_map]. rewrite V2, L3. reflexivity. }
    destruct Q as [l [L1 [L2 L3]]]. exists (VArray l). split; [apply type_array; split; assumption|exact L3].
  - rewrite leaves_tuple in H. apply good_tuple in G. assert (Q : exists l, Forall2 has_type l ts /\ flat_map flat_val l = us).
    { revert us H. induction ts as [|t ts IHt]; intros us H; cbn [flat_map] in H; [inversion H; subst; exists []; split; [constructor|reflexivity]|].
      apply f2_split in H as [x [y [-> [X Y]]]]. destruct (Forall_inv IH (Forall_inv G) x X) as [v [V1 V2]]. destruct (IHt (Forall_inv_tail IH) (Forall_inv_tail G) y Y) as [l [L2 L3]]. exists (v :: l). split; [constructor; assumption|]. cbn [flat_map]. rewrite V2, L3. reflexivity. }
    destruct Q as [l [L2 L3]]. exists (VTuple l). split; [apply type_tuple; assumption|exact L3].
  - rewrite leaves_struct in H. apply good_struct in G as [_ G]. assert (Q : exists l : list (string * value_), Forall2 (fun kv kt => fst kv = fst kt /\ has_type (snd kv) (snd kt)) l ms /\ flat_map (fun kv : string * value_ => flat_val (snd kv)) l = us).
    { revert us H. induction ms as [|[k t] ms IHt]; intros us H; cbn [flat_map] in H; [inversion H; subst; exists []; split; [constructor|reflexivity]|].
      apply f2_split in H as [x [y [-> [X Y]]]]. destruct (Forall_inv IH (Forall_inv G) x X) as [v [V1 V2]]. destruct (IHt (Forall_inv_tail IH) (Forall_inv_tail G) y Y) as [l [L2 L3]]. exists ((k, v) :: l). split; [constructor; [split; [reflexivity|exact V1]|assumption]|]. cbn [flat_map snd]. rewrite V2, L3. reflexivity. }
    destruct Q as [l [L2 L3]]. exists (VStruct l). split; [apply type_struct; assumption|exact L3].
  - contradiction G.
Qed.
(** the first c components from one value, the others from another *)
Lemma mix : forall t v w c, good_ty t -> has_type v t -> has_type w t -> exists u, has_type u t /\ flat_val u = firstn c (flat_val w) ++ skipn c (flat_val v).
Proof.
  intros t v w c G Hv Hw. apply (flat_exists t G). pose proof (flat_leaves t v Hv) as A. pose proof (flat_leaves t w Hw) as B. rewrite <- (firstn_skipn c (leaves t)). apply Forall2_app; [apply f2_firstn; exact B|apply f2_skipn; exact A].
Qed.

(** ** Steps *)
Inductive step_ty : cty -> list step -> cty -> Prop :=
| STnil : forall t, step_ty t [] t
| STidx : forall ty n k r t, step_ty ty r t -> step_ty (CArray ty n) (PIdx k :: r) t
| STmem : forall ms m tm r t a b, ms = a ++ (m, tm) :: b -> ~ In m (map fst a) -> step_ty tm r t -> step_ty (CStruct ms) (PMem m :: r) t
| STelt : forall ts k tk r t, nth_error ts k = Some tk -> step_ty tk r t -> step_ty (CTuple ts) (PElt k :: r) t.
Definition tmem (m : string) (ms : list (string * cty)) : option (string * cty) := find (fun q => String.eqb (fst q) m) ms.
Lemma tmem_at : forall m tm a b, ~ In m (map fst a) -> tmem m (a ++ (m, tm) :: b) = Some (m, tm).
Proof. intros m tm. unfold tmem. induction a as [|[k t] a IH]; intros b N; cbn [app find fst]; [rewrite String.eqb_refl; reflexivity|]. destruct (String.eqb_spec k m) as [->|_]; [destruct N; left; reflexivity|]. apply IH. intros I. apply N. right. exact I. Qed.
(** the position of the part reached *)
Fixpoint poff (t : cty) (ps : list step) : nat :=
  match ps, t with
  | PIdx k :: r, CArray ty _ => (Z.to_nat k * prim_count ty + poff ty r)%nat
  | PMem m :: r, CStruct ms => match moffset m ms, tmem m ms with Some (o, _), Some q => (o + poff (snd q) r)%nat | _, _ => O end
  | PElt k :: r, CTuple ts => match nth_error ts k with Some tk => (sum_count (firstn k ts) + poff tk r)%nat | None => O end
  | _, _ => O
  end.
Fixpoint inb (t : cty) (ps : list step) : Prop :=
  match ps, t with
  | PIdx k :: r, CArray ty n => 0 <= k < Z.of_nat n /\ inb ty r
  | PMem m :: r, CStruct ms => match tmem m ms with Some q => inb (snd q) r | None => False end
  | PElt k :: r, CTuple ts => match nth_error ts k with Some tk => inb tk r | None => False end
  | [], _ => True
  | _, _ => False
  end.
Lemma put_nth_inv : forall A k (f : A -> option A) l l', put_nth k f l = Some l' -> exists a x y b, l = a ++ x :: b /\ l' = a ++ y :: b /\ length a = k /\ f x = Some y.
Proof.
  intros A. induction k as [|k IH]; intros f [|x l] l' H; cbn [put_nth] in H; try discriminate H.
  - destruct (f x) as [y|] eqn:E; [|discriminate H]. injection H as <-. exists [], x, y, l. auto.
  - destruct (put_nth k f l) as [m|] eqn:E; [|discriminate H]. injection H as <-. destruct (IH _ _ _ E) as [a [u [w [b [-> [-> [L F]]]]]]]. exists (x :: a), u, w, b. split; [reflexivity|]. split; [reflexivity|]. split; [cbn; congruence|exact F].
Qed.
Lemma put_nth_def : forall A (f : A -> option A) a x b, put_nth (length a) f (a ++ x :: b) = option_map (fun y => a ++ y :: b) (f x).
Proof. intros A f. induction a as [|y a IH]; intros x b; [reflexivity|]. cbn [length app put_nth]. rewrite IH. destruct (f x); reflexivity. Qed.
Lemma put_mem_at : forall m f x a b, ~ In m (map fst a) -> put_mem m f (a ++ (m, x) :: b) = option_map (fun y => a ++ (m, y) :: b) (f x).
Proof.
  intros m f x. induction a as [|[k u] a IH]; intros b N; cbn [app put_mem]; [rewrite String.eqb_refl; reflexivity|]. destruct (String.eqb_spec k m) as [->|_]; [destruct N; left; reflexivity|]. rewrite IH by (intros I; apply N; right; exact I). destruct (f x); reflexivity.
Qed.
Lemma moffset_at : forall m tm a b, ~ In m (map fst a) -> moffset m (a ++ (m, tm) :: b) = Some (sum_count (map snd a), prim_count tm).
Proof.
  intros m tm. induction a as [|[k t] a IH]; intros b N; cbn [app moffset]; [rewrite String.eqb_refl; reflexivity|]. destruct (String.eqb_spec k m) as [->|_]; [destruct N; left; reflexivity|]. rewrite IH by (intros I; apply N; right; exact I). reflexivity.
Qed.
Lemma flat_list_len : forall l ts, Forall2 has_type l ts -> length (flat_map flat_val l) = sum_count ts.
Proof. induction 1 as [|v t l ts T H IH]; [reflexivity|]. cbn [flat_map]. rewrite app_length, (flat_val_length t v T), IH. reflexivity. Qed.
Definition sflat (kv : string * value_) := flat_val (snd kv).
Definition stype (kv : string * value_) (kt : string * cty) : Prop := fst kv = fst kt /\ has_type (snd kv) (snd kt).
Lemma flat_struct_len : forall l ms, Forall2 stype l ms -> length (flat_map sflat l) = sum_count (map snd ms).
Proof. induction 1 as [|v t l ts [_ T] H IH]; [reflexivity|]. cbn [flat_map map]. unfold sflat at 1. rewrite app_length, (flat_val_length _ _ T), IH. reflexivity. Qed.
Lemma stype_keys : forall l ms, Forall2 stype l ms -> map fst l = map fst ms.
Proof. induction 1 as [|v t l ts [E _] H IH]; [reflexivity|]. cbn [map]. rewrite E, IH. reflexivity. Qed.
Lemma forall_mid : forall A (P : A -> Prop) a x b, Forall P (a ++ x :: b) -> Forall P a /\ P x /\ Forall P b.
Proof. intros A P a x b H. apply Forall_app in H as [A1 A2]. inversion A2; subst. auto. Qed.
Lemma sum_firstn : forall A (ts ta : list A) tk tb, ts = ta ++ tk :: tb -> firstn (length ta) ts = ta.
Proof. intros A ts ta tk tb ->. rewrite firstn_app, firstn_all, Nat.sub_diag. apply app_nil_r. Qed.
(** where the part is, and what replacing it does to the components *)
Theorem put_flat : forall t ps te, step_ty t ps te -> forall v, has_type v t -> inb t ps ->
  exists a old c, flat_val v = a ++ old ++ c /\ length a = poff t ps /\ length old = prim_count te /\
    forall new, has_type new te -> exists v', put ps new v = Some v' /\ has_type v' t /\ flat_val v' = a ++ flat_val new ++ c.
Proof.
  induction 1 as [t|ty n k r t H IH|ms m tm r t sa sb -> N H IH|ts k tk r t E H IH]; intros v Tv Ib.
  - exists [], (flat_val v), []. rewrite app_nil_r. split; [reflexivity|]. split; [reflexivity|]. split; [apply flat_val_length; exact Tv|]. intros new Tn. exists new. rewrite app_nil_r. auto.
  - cbn [inb] in Ib. destruct Ib as [K Ib]. apply type_arr in Tv as [l [-> [L Tl]]]. destruct (nth_error l (Z.to_nat k)) as [u|] eqn:En; [|apply nth_error_None in En; lia]. apply nth_error_split in En as [la [lb [-> La]]]. apply forall_mid in Tl as [T1 [T2 T3]].
    destruct (IH u T2 Ib) as [a [old [c [E1 [E2 [E3 E4]]]]]]. exists (flat_map flat_val la ++ a), old, (c ++ flat_map flat_val lb). cbn [flat_val]. rewrite flat_map_app. cbn [flat_map]. rewrite E1, !app_assoc. split; [reflexivity|]. split; [cbn [poff]; rewrite app_length, (flat_vals_length _ _ T1), E2, La; reflexivity|]. split; [exact E3|].
    intros new Tn. destruct (E4 new Tn) as [u' [P1 [P2 P3]]]. exists (VArray (la ++ u' :: lb)). cbn [put]. replace (0 <=? k) with true by (symmetry; apply Z.leb_le; lia). rewrite <- La, put_nth_def, P1. split; [reflexivity|]. split.
    + apply type_array. split; [rewrite app_length in *; exact L|]. apply Forall_app. split; [exact T1|constructor; assumption].
    + cbn [flat_val]. rewrite flat_map_app. cbn [flat_map]. rewrite P3, !app_assoc. reflexivity.
  - cbn [inb] in Ib. rewrite (tmem_at _ _ _ _ N) in Ib. cbn [snd] in Ib. apply type_str in Tv as [l [-> Tl]]. change (Forall2 stype l (sa ++ (m, tm) :: sb)) in Tl. apply Forall2_app_inv_r in Tl as [la [lb [T1 [T2 ->]]]]. inversion T2 as [|[m' u] ? lb' ? [Em Tu] T3]; subst. cbn [fst snd] in Em, Tu. subst m'.
    destruct (IH u Tu Ib) as [a [old [c [E1 [E2 [E3 E4]]]]]]. exists (flat_map sflat la ++ a), old, (c ++ flat_map sflat lb'). cbn [flat_val]. change (fun kv : string * value_ => flat_val (snd kv)) with sflat. rewrite flat_map_app. cbn [flat_map]. unfold sflat at 2. cbn [snd]. rewrite E1, !app_assoc. split; [reflexivity|]. split; [cbn [poff]; rewrite (tmem_at _ _ _ _ N), (moffset_at _ _ _ _ N); cbn [snd]; rewrite app_length, (flat_struct_len _ _ T1), E2; reflexivity|]. split; [exact E3|].
    intros new Tn. destruct (E4 new Tn) as [u' [P1 [P2 P3]]]. exists (VStruct (la ++ (m, u') :: lb')). cbn [put]. rewrite put_mem_at by (rewrite (stype_keys _ _ T1); exact N). rewrite P1. split; [reflexivity|]. split.
    + apply type_struct. apply Forall2_app; [exact T1|]. constructor; [split; [reflexivity|exact P2]|exact T3].
    + cbn [flat_val]. change (fun kv : string * value_ => flat_val (snd kv)) with sflat. rewrite flat_map_app. cbn [flat_map]. unfold sflat at 2. cbn [snd]. rewrite P3, !app_assoc. reflexivity.
  - cbn [inb] in Ib. rewrite E in Ib. apply type_tup in Tv as [l [-> Tl]]. destruct (nth_error_split _ _ E) as [ta [tb [-> La]]]. apply Forall2_app_inv_r in Tl as [la [lb [T1 [T2 ->]]]]. inversion T2 as [|u ? lb' ? Tu T3]; subst. assert (Ll : length la = length ta) by (apply (f2_len _ _ _ _ _ T1)).
    destruct (IH u Tu Ib) as [a [old [c [E1 [E2 [E3 E4]]]]]]. exists (flat_map flat_val la ++ a), old, (c ++ flat_map flat_val lb'). cbn [flat_val]. rewrite flat_map_app. cbn [flat_map]. rewrite E1, !app_assoc. split; [reflexivity|]. split; [cbn [poff]; rewrite E, app_length, (flat_list_len _ _ T1), E2; rewrite (sum_firstn _ (ta ++ tk :: tb) ta tk tb eq_refl); reflexivity|]. split; [exact E3|].
    intros new Tn. destruct (E4 new Tn) as [u' [P1 [P2 P3]]]. exists (VTuple (la ++ u' :: lb')). cbn [put]. rewrite <- Ll, put_nth_def, P1. split; [reflexivity|]. split.
    + apply type_tuple. apply Forall2_app; [exact T1|]. constructor; assumption.
    + cbn [flat_val]. rewrite flat_map_app. cbn [flat_map]. rewrite P3, !app_assoc. reflexivity.
Qed.
(** replacing fails exactly when an index is out of bounds *)
Theorem put_inb : forall t ps te, step_ty t ps te -> forall v new v', has_type v t -> put ps new v = Some v' -> inb t ps.
Proof.
  induction 1 as [t|ty n k r t H IH|ms m tm r t sa sb -> N H IH|ts k tk r t E H IH]; intros v new v' Tv P.
  - exact I.
  - apply type_arr in Tv as [l [-> [L Tl]]]. cbn [put] in P. destruct (Z.leb_spec 0 k) as [K|K]; [|discriminate P]. destruct (put_nth (Z.to_nat k) (put r new) l) as [l'|] eqn:En; [|discriminate P]. apply put_nth_inv in En as [a [x [y [b [-> [-> [La F]]]]]]]. apply forall_mid in Tl as [_ [T2 _]]. rewrite app_length in L. cbn [length] in L. cbn [inb]. split; [lia|exact (IH _ _ _ T2 F)].
  - apply type_str in Tv as [l [-> Tl]]. change (Forall2 stype l (sa ++ (m, tm) :: sb)) in Tl. apply Forall2_app_inv_r in Tl as [la [lb [T1 [T2 ->]]]]. inversion T2 as [|[m' u] ? lb' ? [Em Tu] T3]; subst. cbn [fst snd] in Em, Tu. subst m'. cbn [put] in P. rewrite put_mem_at in P by (rewrite (stype_keys _ _ T1); exact N).
    destruct (put r new u) as [u'|] eqn:F; [|discriminate P]. cbn [inb]. rewrite (tmem_at _ _ _ _ N). exact (IH _ _ _ Tu F).
  - apply type_tup in Tv as [l [-> Tl]]. destruct (nth_error_split _ _ E) as [ta [tb [-> La]]]. apply Forall2_app_inv_r in Tl as [la [lb [T1 [T2 ->]]]]. inversion T2 as [|u ? lb' ? Tu T3]; subst. assert (Ll : length la = length ta) by (apply (f2_len _ _ _ _ _ T1)).
    cbn [put] in P. rewrite <- Ll, put_nth_def in P. destruct (put r new u) as [u'|] eqn:F; [|discriminate P]. cbn [inb]. rewrite E. exact (IH _ _ _ Tu F).
Qed.
(** ** The assignees of a constant path *)
Lemma islice_inv : forall A (l : list A) i j r, islice l i j = Some r -> exists c, l = firstn i l ++ r ++ c /\ length (firstn i l) = i /\ length r = (j - i)%nat.
Proof.
  intros A l i j r H. unfold islice in H. destruct (i <=? j)%nat eqn:A1; [|discriminate H]. destruct (j <=? length l)%nat eqn:B; [|discriminate H]. apply Nat.leb_le in A1, B. injection H as <-. exists (skipn (j - i) (skipn i l)). rewrite firstn_skipn, firstn_skipn. split; [reflexivity|]. split; [apply firstn_length_le; lia|rewrite firstn_length_le; [reflexivity|rewrite skipn_length; lia]].
Qed.
(** the indices of a constant path *)
Fixpoint csteps (p : list access) : list step := match p with [] => [] | ASel (TOp (OUVal _ k) []) :: r => PIdx k :: csteps r | ASel _ :: r => csteps r | AMem m :: r => PMem m :: csteps r | AElt k :: r => PElt k :: csteps r end.
Lemma is_ulit_inv : forall i, is_ulit i = true -> exists w k, i = TOp (OUVal w k) [].
Proof. intros [t x|[] [|]|c x y|ss e] H; try discriminate H. eauto. Qed.
Lemma csteps_ok : forall p rho, const_path p = true -> steps rho p = Ok ([], csteps p).
Proof.
  induction p as [|[i|m|k] p IH]; intros rho H; cbn [const_path] in H; [reflexivity| | |].
  - apply andb_prop in H as [H1 H2]. apply is_ulit_inv in H1 as [w [k ->]]. cbn [steps teval teval_list obnd sem_op csteps fst snd]. rewrite (IH rho H2). reflexivity.
  - cbn [steps csteps]. rewrite (IH rho H). reflexivity.
  - cbn [steps csteps]. rewrite (IH rho H). reflexivity.
Qed.
Lemma path_steps : forall (S : tctx) t p te, path_ty S t p te -> forall rho lg ps, steps rho p = Ok (lg, ps) -> step_ty t ps te.
Proof.
  induction 1 as [t|ty n i r t Hn Ti H IH|ms m tm r t sa sb -> N H IH|ts k tk r t E H IH]; intros rho lg ps P; cbn [steps] in P.
  - injection P as <- <-. apply STnil.
  - destruct (teval rho i) as [[la va]| |]; try discriminate P. cbn [obnd] in P. destruct (steps rho r) as [[lb pb]| |] eqn:Eb; try discriminate P. cbn [obnd fst snd] in P. destruct va; try discriminate P. injection P as <- <-. apply STidx. exact (IH _ _ _ Eb).
  - destruct (steps rho r) as [[lb pb]| |] eqn:Eb; try discriminate P. injection P as <- <-. apply (STmem _ _ tm _ _ sa sb); [reflexivity|exact N|exact (IH _ _ _ Eb)].
  - destruct (steps rho r) as [[lb pb]| |] eqn:Eb; try discriminate P. injection P as <- <-. apply (STelt _ _ tk); [exact E|exact (IH _ _ _ Eb)].
Qed.
Lemma assignees_ok : forall t ps te, step_ty t ps te -> forall p l r, const_path p = true -> csteps p = ps -> length l = prim_count t -> assignees t p l = Some r -> exists a c, l = a ++ r ++ c /\ length a = poff t ps /\ length r = prim_count te.
Proof.
  induction 1 as [t|ty n k r t H IH|ms m tm r t sa sb -> N H IH|ts k tk r t E H IH]; intros p l res Cp Ep L A; destruct p as [|[i|m'|k'] p]; try discriminate Ep; cbn [const_path] in Cp; cbn [csteps] in Ep.
  - injection A as <-. exists [], []. rewrite app_nil_r. auto.
  - apply andb_prop in Cp as [H1 _]. apply is_ulit_inv in H1 as [w [k ->]]. discriminate Ep.
  - apply andb_prop in Cp as [H1 H2]. apply is_ulit_inv in H1 as [w [k0 ->]]. injection Ep as -> Ep. cbn [assignees] in A. destruct (islice l (Z.to_nat k * prim_count ty) ((Z.to_nat k + 1) * prim_count ty)) as [l'|] eqn:Es; [|discriminate A]. apply islice_inv in Es as [c [E1 [E2 E3]]].
    destruct (IH p l' res H2 Ep) as [a' [c' [F1 [F2 F3]]]]; [rewrite E3; lia|exact A|]. exists (firstn (Z.to_nat k * prim_count ty) l ++ a'), (c' ++ c). split; [rewrite E1 at 1; rewrite F1, <- !app_assoc; reflexivity|]. split; [cbn [poff]; rewrite app_length, E2, F2; reflexivity|exact F3].
  - apply andb_prop in Cp as [H1 _]. apply is_ulit_inv in H1 as [w [k0 ->]]. discriminate Ep.
  - injection Ep as -> Ep. cbn [assignees] in A. change (find (fun q : string * cty => (fst q =? m)%string) (sa ++ (m, tm) :: sb)) with (tmem m (sa ++ (m, tm) :: sb)) in A. rewrite (moffset_at _ _ _ _ N), (tmem_at _ _ _ _ N) in A. cbn [snd] in A. destruct (islice l (sum_count (map snd sa)) (sum_count (map snd sa) + prim_count tm)) as [l'|] eqn:Es; [|discriminate A]. apply islice_inv in Es as [c [E1 [E2 E3]]].
    destruct (IH p l' res Cp Ep) as [a' [c' [F1 [F2 F3]]]]; [rewrite E3; lia|exact A|]. exists (firstn (sum_count (map snd sa)) l ++ a'), (c' ++ c). split; [rewrite E1 at 1; rewrite F1, <- !app_assoc; reflexivity|]. split; [cbn [poff]; rewrite (tmem_at _ _ _ _ N), (moffset_at _ _ _ _ N); cbn [snd]; rewrite app_length, E2, F2; reflexivity|exact F3].
  - apply andb_prop in Cp as [H1 _]. apply is_ulit_inv in H1 as [w [k0 ->]]. discriminate Ep.
  - injection Ep as -> Ep. cbn [assignees] in A. rewrite E in A. destruct (islice l (sum_count (firstn k ts)) (sum_count (firstn k ts) + prim_count tk)) as [l'|] eqn:Es; [|discriminate A]. apply islice_inv in Es as [c [E1 [E2 E3]]].
    destruct (IH p l' res Cp Ep) as [a' [c' [F1 [F2 F3]]]]; [rewrite E3; lia|exact A|]. exists (firstn (sum_count (firstn k ts)) l ++ a'), (c' ++ c). split; [rewrite E1 at 1; rewrite F1, <- !app_assoc; reflexivity|]. split; [cbn [poff]; rewrite E, app_length, E2, F2; reflexivity|exact F3].
Qed.
End WritesVal.
