(** Proofs about Flatten.v: the names and the operators. *)
From Coq Require Import String Ascii.
From Coq Require Import ZArith NArith List Bool Lia.
From Verif Require Import PField Interp Bits Zir UintOpt Str Abi Typed Flatten.
Import ListNotations.
Open Scope Z_scope.

(** ** Names are distinct *)
Lemma pbits_inj : forall p q a b, pbits p ++ a = pbits q ++ b -> p = q /\ a = b.
Proof. induction p as [p IH|p IH|]; intros [q|q|] a b H; cbn in H; try discriminate H; injection H as H; try (apply IH in H as [-> ->]); auto. Qed.
Lemma zbits_inj : forall p q a b, zbits p ++ a = zbits q ++ b -> p = q /\ a = b.
Proof. intros [|p|p] [|q|q] a b H; cbn in H; try discriminate H; injection H as H; try (apply pbits_inj in H as [-> ->]); auto. Qed.
Lemma cbits_inj : forall p q a b, cbits p ++ a = cbits q ++ b -> p = q /\ a = b.
Proof. intros [] [] x y H. cbn in H. injection H. intros. subst. auto. Qed.
Lemma strbits_inj : forall p q a b, strbits p ++ a = strbits q ++ b -> p = q /\ a = b.
Proof.
  induction p as [|c p IH]; intros [|d q] a b H; cbn [strbits app] in H; try discriminate H; injection H as H; auto. rewrite <- !app_assoc in H. apply cbits_inj in H as [-> H]. apply IH in H as [-> ->]. auto.
Qed.
Lemma sbits_inj : forall s r, sbits s = sbits r -> s = r.
Proof.
  induction s as [x|s IH i|s IH m|s IH i]; intros [y|r j|r k|r j] H; cbn [sbits] in H; try discriminate H; injection H as H.
  - destruct (zbits_inj x y [] []) as [-> _]; [rewrite !app_nil_r; exact H|reflexivity].
  - apply zbits_inj in H as [E H]. apply Nat2Z.inj in E. rewrite E, (IH _ H). reflexivity.
  - apply strbits_inj in H as [-> H]. rewrite (IH _ H). reflexivity.
  - apply zbits_inj in H as [E H]. apply Nat2Z.inj in E. rewrite E, (IH _ H). reflexivity.
Qed.
Lemma of_bits_inj : forall a b, of_bits a = of_bits b -> a = b.
Proof. induction a as [|[] a IH]; intros [|[] b] H; cbn [of_bits] in H; try discriminate H; try reflexivity; injection H as H; rewrite (IH _ H); reflexivity. Qed.
Theorem name_inj : forall s r, name s = name r -> s = r.
Proof. intros s r H. unfold name in H. injection H as H. apply sbits_inj, of_bits_inj, H. Qed.

(** ** Components *)
Fixpoint leaves (t : cty) : list lty :=
  match t with
  | CField => [LF]
  | CBool => [LB]
  | CUint w => [LU w]
  | CArray ty n => concat (repeat (leaves ty) n)
  | CTuple ts => (fix go l := match l with [] => [] | t :: r => leaves t ++ go r end) ts
  | CStruct ms => (fix go l := match l with [] => [] | (_, t) :: r => leaves t ++ go r end) ms
  | CInt => []
  end.
Fixpoint ids_tuple (s : sid) (i : nat) (ts : list cty) : list (sid * lty) := match ts with [] => [] | t :: r => flat_ids (SElt s i) t ++ ids_tuple s (S i) r end.
Fixpoint ids_struct (s : sid) (ms : list (string * cty)) : list (sid * lty) := match ms with [] => [] | (k, t) :: r => flat_ids (SMem s k) t ++ ids_struct s r end.
Lemma flat_ids_tuple : forall s ts, flat_ids s (CTuple ts) = ids_tuple s 0 ts.
Proof. intros s ts. cbn [flat_ids]. generalize 0%nat. induction ts as [|t ts IH]; intros i; [reflexivity|]. cbn [ids_tuple]. rewrite <- IH. reflexivity. Qed.
Lemma flat_ids_struct : forall s ms, flat_ids s (CStruct ms) = ids_struct s ms.
Proof. intros s ms. induction ms as [|[k t] ms IH]; [reflexivity|]. cbn in *. rewrite IH. reflexivity. Qed.
Lemma leaves_tuple : forall ts, leaves (CTuple ts) = flat_map leaves ts.
Proof. induction ts as [|t ts IH]; [reflexivity|]. cbn in *. rewrite IH. reflexivity. Qed.
Lemma leaves_struct : forall ms, leaves (CStruct ms) = flat_map (fun m => leaves (snd m)) ms.
Proof. induction ms as [|[k t] ms IH]; [reflexivity|]. cbn in *. rewrite IH. reflexivity. Qed.
Lemma ids_leaves : forall t s, map snd (flat_ids s t) = leaves t.
Proof.
  induction t as [| |w|ty n IH|ts IH|ms IH|] using cty_ind'; intros s; try reflexivity.
  - cbn [flat_ids leaves]. generalize 0%nat. induction n as [|n IHn]; intros k; [reflexivity|]. cbn [seq flat_map repeat concat]. rewrite map_app, IH, IHn. reflexivity.
  - rewrite flat_ids_tuple, leaves_tuple. generalize 0%nat. induction IH as [|t ts I1 I2 IHt]; intros k; [reflexivity|]. cbn [ids_tuple flat_map]. rewrite map_app, I1, IHt. reflexivity.
  - rewrite flat_ids_struct, leaves_struct. induction IH as [|[k t] ms I1 I2 IHt]; [reflexivity|]. cbn [ids_struct flat_map snd] in *. rewrite map_app, I1, IHt. reflexivity.
Qed.
Lemma leaves_count : forall t, length (leaves t) = prim_count t.
Proof.
  induction t as [| |w|ty n IH|ts IH|ms IH|] using cty_ind'; try reflexivity.
  - cbn [leaves prim_count]. induction n as [|n IHn]; [reflexivity|]. cbn [repeat concat]. rewrite app_length, IH, IHn. reflexivity.
  - rewrite leaves_tuple, count_tuple. induction IH as [|t ts I1 I2 IHt]; [reflexivity|]. cbn [flat_map sum_count fold_right]. rewrite app_length, I1, IHt. reflexivity.
  - rewrite leaves_struct, count_struct. induction IH as [|[k t] ms I1 I2 IHt]; [reflexivity|]. cbn [flat_map map sum_count fold_right snd] in *. rewrite app_length, I1, IHt. reflexivity.
Qed.
Lemma ids_length : forall s t, length (flat_ids s t) = prim_count t.
Proof. intros s t. rewrite <- leaves_count, <- (ids_leaves t s), map_length. reflexivity. Qed.
(** an identifier inside another *)
Fixpoint under (s r : sid) : Prop := s = r \/ match r with SBase _ => False | SSel r _ | SMem r _ | SElt r _ => under s r end.
Lemma under_trans_sel : forall s r i, under (SSel s i) r -> under s r.
Proof. induction r as [y|r IH j|r IH m|r IH j]; intros i [E|H]; try discriminate E; try contradiction; [injection E as <- _; right; destruct s; left; reflexivity|right; eauto ..]. Qed.
Lemma under_trans_mem : forall s r i, under (SMem s i) r -> under s r.
Proof. induction r as [y|r IH j|r IH m|r IH j]; intros i [E|H]; try discriminate E; try contradiction; [right; eauto|injection E as <- _; right; destruct s; left; reflexivity|right; eauto ..]. Qed.
Lemma under_trans_elt : forall s r i, under (SElt s i) r -> under s r.
Proof. induction r as [y|r IH j|r IH m|r IH j]; intros i [E|H]; try discriminate E; try contradiction; [right; eauto|right; eauto|injection E as <- _; right; destruct s; left; reflexivity|right; eauto]. Qed.
Lemma under_base : forall s r, under s r -> base r = base s.
Proof. induction r as [y|r IH j|r IH m|r IH j]; intros [<-|H]; try reflexivity; try contradiction; cbn [base]; auto. Qed.
Fixpoint depth (s : sid) : nat := match s with SBase _ => O | SSel s _ | SMem s _ | SElt s _ => S (depth s) end.
Lemma under_depth : forall s r, under s r -> (depth s <= depth r)%nat.
Proof. induction r as [y|r IH j|r IH m|r IH j]; intros [<-|H]; try lia; try contradiction; cbn [depth]; apply IH in H; lia. Qed.
Lemma under_inj : forall a b r, under a r -> under b r -> depth a = depth b -> a = b.
Proof.
  induction r as [y|r IH j|r IH m|r IH j]; intros [->|H] [->|G] E; auto; try contradiction; try (apply under_depth in H; cbn [depth] in *; lia); try (apply under_depth in G; cbn [depth] in *; lia).
Qed.
Lemma ids_under : forall t s r l, In (r, l) (flat_ids s t) -> under s r.
Proof.
  induction t as [| |w|ty n IH|ts IH|ms IH|] using cty_ind'; intros s r l H; try (cbn in H; destruct H as [H|[]]; injection H as <- _; destruct s; left; reflexivity); try contradiction.
  - cbn [flat_ids] in H. apply in_flat_map in H as [i [_ H]]. apply IH in H. eapply under_trans_sel; eauto.
  - rewrite flat_ids_tuple in H. revert H. generalize 0%nat. induction IH as [|t ts I1 I2 IHt]; intros k H; [contradiction|]. cbn [ids_tuple] in H. apply in_app_or in H as [H|H]; [|eapply IHt; eauto]. apply I1 in H. eapply under_trans_elt; eauto.
  - rewrite flat_ids_struct in H. revert H. induction IH as [|[k t] ms I1 I2 IHt]; intros H; [contradiction|]. cbn [ids_struct snd] in *. apply in_app_or in H as [H|H]; [|eapply IHt; eauto]. apply I1 in H. eapply under_trans_mem; eauto.
Qed.
Lemma ids_base : forall t s r l, In (r, l) (flat_ids s t) -> base r = base s.
Proof. intros t s r l H. apply under_base. eapply ids_under; eauto. Qed.
Lemma good_tuple : forall ts, good_ty (CTuple ts) <-> Forall good_ty ts.
Proof. intros ts. cbn. induction ts as [|t ts IH]; [split; [constructor|trivial]|]. rewrite IH. split; [intros [A B]; constructor; assumption|]. intros H. inversion H; subst. split; assumption. Qed.
Lemma good_struct : forall ms, good_ty (CStruct ms) <-> NoDup (map fst ms) /\ Forall (fun m => good_ty (snd m)) ms.
Proof. intros ms. cbn. apply and_iff_compat_l. induction ms as [|[k t] ms IH]; [split; [constructor|trivial]|]. rewrite IH. split; [intros [A B]; constructor; assumption|]. intros H. inversion H; subst. split; assumption. Qed.
Lemma nodup_app : forall A (a b : list A), NoDup a -> NoDup b -> (forall x, In x a -> ~ In x b) -> NoDup (a ++ b).
Proof. induction 1 as [|x a N H IH]; intros Hb D; [exact Hb|]. cbn. constructor; [|apply IH; [exact Hb|intros y Y; apply D; right; exact Y]]. intros X. apply in_app_or in X as [X|X]; [contradiction|]. exact (D x (or_introl eq_refl) X). Qed.
(** the components of a variable are distinct *)
Lemma ids_nodup : forall t s, good_ty t -> NoDup (map fst (flat_ids s t)).
Proof.
  induction t as [| |w|ty n IH|ts IH|ms IH|] using cty_ind'; intros s G; try (cbn; constructor; [intros []|constructor]); try contradiction.
  - cbn [flat_ids]. cbn [good_ty] in G. generalize 0%nat. induction n as [|n IHn]; intros k; [constructor|]. cbn [seq flat_map]. rewrite map_app. apply nodup_app; [apply IH; exact G|apply IHn|].
    intros x X Y. apply in_map_iff in X as [[x1 l1] [<- X]]. apply in_map_iff in Y as [[x2 l2] [E Y]]. cbn [fst] in *. apply in_flat_map in Y as [j [J Y]]. apply ids_under in X, Y. subst x2. apply in_seq in J. pose proof (under_inj _ _ _ X Y eq_refl) as E. injection E as E. lia.
  - rewrite flat_ids_tuple. apply good_tuple in G. generalize 0%nat. induction IH as [|t ts I1 I2 IHt]; intros k; [constructor|]. inversion G as [|? ? G1 G2]; subst. cbn [ids_tuple]. rewrite map_app. apply nodup_app; [apply I1; exact G1|apply IHt; exact G2|].
    intros x X Y. apply in_map_iff in X as [[x1 l1] [<- X]]. apply in_map_iff in Y as [[x2 l2] [E Y]]. cbn [fst] in *. subst x2. apply ids_under in X.
    assert (Q : exists j, (k < j)%nat /\ under (SElt s j) x1). { clear - Y. revert Y. assert (K : (k < S k)%nat) by lia. revert K. generalize (S k). induction ts as [|t ts IH]; intros m K Y; [contradiction|]. cbn [ids_tuple] in Y. apply in_app_or in Y as [Y|Y]; [|apply (IH (S m)); [lia|exact Y]]. apply ids_under in Y. exists m. split; [exact K|exact Y]. }
    destruct Q as [j [J Q]]. pose proof (under_inj _ _ _ X Q eq_refl) as E. injection E as E. lia.
  - rewrite flat_ids_struct. apply good_struct in G as [N G]. induction IH as [|[k t] ms I1 I2 IHt]; [constructor|]. inversion G as [|? ? G1 G2]; subst. cbn [map fst] in N. inversion N as [|? ? N1 N2]; subst. cbn [ids_struct snd] in *. rewrite map_app. apply nodup_app; [apply I1; exact G1|apply IHt; assumption|].
    intros x X Y. apply in_map_iff in X as [[x1 l1] [<- X]]. apply in_map_iff in Y as [[x2 l2] [E Y]]. cbn [fst] in *. subst x2. apply ids_under in X.
    assert (Q : exists j, In j (map fst ms) /\ under (SMem s j) x1). { clear - Y. induction ms as [|[j t] ms IH]; [contradiction|]. cbn [ids_struct] in Y. apply in_app_or in Y as [Y|Y]; [apply ids_under in Y; exists j; split; [left; reflexivity|exact Y]|]. destruct (IH Y) as [i [I J]]. exists i. split; [right; exact I|exact J]. }
    destruct Q as [j [J Q]]. pose proof (under_inj _ _ _ X Q eq_refl) as E. injection E as E. subst j. contradiction.
Qed.

Section Ops.
Context {PF : PrimeField}.
(** the components of a value *)
Fixpoint flat_val (v : value_) : list val :=
  match v with
  | VField x => [VF x]
  | VUint _ n => [VU n]
  | VBool b => [VB b]
  | VArray l => flat_map flat_val l
  | VTuple l => flat_map flat_val l
  | VStruct l => flat_map (fun kv => flat_val (snd kv)) l
  end.
Lemma bits_uwn : forall w, bits_of w = Z.of_nat (uwn w).
Proof. intros []; reflexivity. Qed.
(** induction on values through their type *)
Lemma flat_val_encode : forall t v, has_type v t -> map val_f (flat_val v) = encode v.
Proof.
  induction t as [| |w|ty n IH|ts IH|ms IH|] using cty_ind'; intros v H; destruct v; try (cbn in H; contradiction); try reflexivity.
  - cbn [flat_val encode map val_f]. rewrite f_of_bool_Z. reflexivity.
  - apply type_array in H as [_ H]. cbn [flat_val encode]. induction H as [|v l Hv Hl IHl]; [reflexivity|]. cbn [flat_map]. rewrite map_app, (IH v Hv), IHl. reflexivity.
  - apply type_tuple in H. cbn [flat_val encode]. revert IH. induction H as [|v t l ts Hv Hl IHl]; intros IH; [reflexivity|]. inversion IH as [|? ? I1 I2]; subst. cbn [flat_map]. rewrite map_app, (I1 v Hv), (IHl I2). reflexivity.
  - apply type_struct in H. cbn [flat_val encode]. revert IH. induction H as [|[k v] [k' t] l ms [_ Hv] Hl IHl]; intros IH; [reflexivity|]. inversion IH as [|? ? I1 I2]; subst. cbn [snd] in *. cbn [flat_map snd]. rewrite map_app, (I1 v Hv), (IHl I2). reflexivity.
Qed.
Lemma flat_val_length : forall t v, has_type v t -> length (flat_val v) = prim_count t.
Proof. intros t v H. rewrite <- (encode_length t v H), <- (flat_val_encode t v H), map_length. reflexivity. Qed.
Lemma flat_vals_length : forall l ty, Forall (fun v => has_type v ty) l -> length (flat_map flat_val l) = (length l * prim_count ty)%nat.
Proof. induction 1 as [|v l Hv Hl IH]; [reflexivity|]. cbn [flat_map length]. rewrite app_length, (flat_val_length ty v Hv), IH. reflexivity. Qed.

(** [rp zr z v]: z evaluates to v and is an expression of the right kind *)
Definition kok (k : kind) (v : val) : Prop := match k, v with KF, VF _ | KB, VB _ | KU _, VU _ => True | _, _ => False end.
Definition rp (zr : env_s) (z : zexp) (v : val) : Prop := sem zr z = Some v /\ kok (zkind z) v.
Definition rps (zr : env_s) (zs : list zexp) (v : value_) : Prop := Forall2 (rp zr) zs (flat_val v).
Lemma rps_sem : forall zr zs v, rps zr zs v -> sem_list zr zs = Some (flat_val v).
Proof. intros zr zs v H. apply opt_list_map_some. induction H as [|a b l m [E _] _ IH]; constructor; assumption. Qed.
Lemma rp_sem : forall zr zs vs, Forall2 (rp zr) zs vs -> sem_list zr zs = Some vs.
Proof. intros zr zs v H. apply opt_list_map_some. induction H as [|a b l m [E _] _ IH]; constructor; assumption. Qed.

Lemma f2_len : forall A B (R : A -> B -> Prop) l m, Forall2 R l m -> length l = length m.
Proof. induction 1; cbn; congruence. Qed.
Lemma f2_firstn : forall A B (R : A -> B -> Prop) n l m, Forall2 R l m -> Forall2 R (firstn n l) (firstn n m).
Proof. intros A B R n l m H. revert n. induction H; intros [|n]; cbn; constructor; auto. Qed.
Lemma f2_skipn : forall A B (R : A -> B -> Prop) n l m, Forall2 R l m -> Forall2 R (skipn n l) (skipn n m).
Proof. intros A B R n l m H. revert n. induction H; intros [|n]; cbn; auto. Qed.
Lemma f2_slice : forall A B (R : A -> B -> Prop) i j l m, Forall2 R l m -> Forall2 R (firstn (j - i) (skipn i l)) (firstn (j - i) (skipn i m)).
Proof. intros. apply f2_firstn, f2_skipn. assumption. Qed.
Lemma slice_app : forall A (a b c : list A) i j, length a = i -> j = (i + length b)%nat -> firstn (j - i) (skipn i (a ++ b ++ c)) = b.
Proof.
  intros A a b c i j <- ->. rewrite skipn_app, skipn_all, Nat.sub_diag. cbn [app skipn]. replace (length a + length b - length a)%nat with (length b) by lia. rewrite firstn_app, firstn_all, Nat.sub_diag. cbn [firstn]. apply app_nil_r.
Qed.
Lemma zslice_ok : forall zs i j r, zslice zs i j = Some r -> (i <= j <= length zs)%nat /\ r = firstn (j - i) (skipn i zs).
Proof.
  intros zs i j r H. unfold zslice in H. destruct (i <=? j)%nat eqn:A; [|discriminate H]. destruct (j <=? length zs)%nat eqn:B; [|discriminate H]. apply Nat.leb_le in A, B. injection H as <-. auto.
Qed.
(** a slice of the components, as the components of the slice *)
Lemma slice_rps : forall zr zs (a b c : list val) i j r, Forall2 (rp zr) zs (a ++ b ++ c) -> zslice zs i j = Some r -> length a = i -> j = (i + length b)%nat -> Forall2 (rp zr) r b.
Proof. intros zr zs a b c i j r H E Ha Hb. apply zslice_ok in E as [_ ->]. rewrite <- (slice_app _ a b c i j Ha Hb). apply f2_slice. exact H. Qed.

(** ** Equality *)
Definition leaf_eqb (a b : val) : bool := match a, b with VF x, VF y => fval x =? fval y | VB x, VB y => eqb x y | VU x, VU y => x =? y | _, _ => false end.
Fixpoint leaves_eqb (a b : list val) : bool := match a, b with [], [] => true | x :: r, y :: s => leaf_eqb x y && leaves_eqb r s | _, _ => false end.
Lemma leaves_eqb_app : forall a b c d, length a = length b -> leaves_eqb (a ++ c) (b ++ d) = leaves_eqb a b && leaves_eqb c d.
Proof. induction a as [|x a IH]; intros [|y b] c d L; try discriminate L; [reflexivity|]. cbn. rewrite IH by (injection L as L; exact L). apply andb_assoc. Qed.
Lemma value_eqb_array : forall l m, value_eqb (VArray l) (VArray m) = value_eqb (VTuple l) (VTuple m).
Proof. reflexivity. Qed.
Lemma value_eqb_leaves : forall t a b, has_type a t -> has_type b t -> value_eqb a b = leaves_eqb (flat_val a) (flat_val b).
Proof.
  induction t as [| |w|ty n IH|ts IH|ms IH|] using cty_ind'; intros a b Ha Hb; destruct a, b; try (cbn in Ha; contradiction); try (cbn in Hb; contradiction).
  1-3: cbn; rewrite andb_true_r; reflexivity.
  - apply type_array in Ha as [La Ha], Hb as [Lb Hb]. cbn [flat_val]. assert (L : length l = length l0) by congruence. clear La Lb n. revert l0 Hb L. induction Ha as [|v l Hv Hl IHl]; intros [|u m] Hb L; try discriminate L; [reflexivity|]. inversion Hb as [|? ? Hu Hm]; subst.
    cbn [flat_map]. rewrite leaves_eqb_app by (rewrite (flat_val_length ty v Hv), (flat_val_length ty u Hu); reflexivity). rewrite <- (IH v u Hv Hu), <- (IHl m Hm) by (injection L as L; exact L). reflexivity.
  - apply type_tuple in Ha, Hb. cbn [flat_val]. revert l0 Hb IH. induction Ha as [|v t l ts Hv Hl IHl]; intros [|u m] Hb IH; try (inversion Hb; fail); [reflexivity|]. inversion Hb as [|? ? ? ? Hu Hm]; inversion IH as [|? ? I1 I2]; subst.
    cbn [flat_map]. rewrite leaves_eqb_app by (rewrite (flat_val_length t v Hv), (flat_val_length t u Hu); reflexivity). rewrite <- (I1 v u Hv Hu), <- (IHl m Hm I2). reflexivity.
  - apply type_struct in Ha, Hb. cbn [flat_val]. revert l0 Hb IH. induction Ha as [|[k v] [k' t] l ms [E Hv] Hl IHl]; intros [|[j u] m] Hb IH; try (inversion Hb; fail); [reflexivity|]. inversion Hb as [|? ? ? ? [E' Hu] Hm]; inversion IH as [|? ? I1 I2]; subst. cbn [fst snd] in *. subst k j.
    cbn [flat_map snd]. rewrite leaves_eqb_app by (rewrite (flat_val_length t v Hv), (flat_val_length t u Hu); reflexivity). rewrite <- (I1 v u Hv Hu), <- (IHl m Hm I2). cbn [value_eqb]. rewrite String.eqb_refl. reflexivity.
Qed.
Lemma zeq_ok : forall zr x y a b z, zeq x y = Some z -> rp zr x a -> rp zr y b -> rp zr z (VB (leaf_eqb a b)).
Proof.
  intros zr x y a b z H [Sx Kx] [Sy Ky]. unfold zeq in H. destruct (zkind x), (zkind y); try discriminate H; injection H as <-; destruct a, b; try contradiction; (split; [cbn [sem]; rewrite Sx, Sy; reflexivity|exact I]).
Qed.
Lemma conj_tree_ok : forall f zr v w a b z, conj_tree f v w = Some z -> Forall2 (rp zr) v a -> Forall2 (rp zr) w b -> length a = length b -> rp zr z (VB (leaves_eqb a b)).
Proof.
  induction f as [|f IH]; intros zr v w a b z H Hv Hw L.
  - inversion Hv as [|x a0 v' a' Hx Hr]; inversion Hw as [|y b0 w' b' Hy Hs]; subst; try discriminate L; cbn [conj_tree] in H; [injection H as <-; split; reflexivity|].
    destruct v' as [|? ?]; [|destruct (length (x :: z0 :: v') =? length (y :: w'))%nat; discriminate H]. inversion Hr; subst. destruct b'; [|discriminate L]. inversion Hs; subst. cbn [leaves_eqb]. rewrite andb_true_r. eapply zeq_ok; eauto.
  - assert (G : forall n, match conj_tree f (firstn n v) (firstn n w), conj_tree f (skipn n v) (skipn n w) with Some a, Some b => Some (ZBBin BAnd a b) | _, _ => None end = Some z -> rp zr z (VB (leaves_eqb a b))).
    { intros n G. destruct (conj_tree f (firstn n v) (firstn n w)) as [z1|] eqn:E1; [|discriminate G]. destruct (conj_tree f (skipn n v) (skipn n w)) as [z2|] eqn:E2; [|discriminate G]. injection G as <-.
      destruct (IH zr _ _ (firstn n a) (firstn n b) z1 E1) as [S1 _]; [apply f2_firstn; exact Hv|apply f2_firstn; exact Hw|rewrite !firstn_length; lia|].
      destruct (IH zr _ _ (skipn n a) (skipn n b) z2 E2) as [S2 _]; [apply f2_skipn; exact Hv|apply f2_skipn; exact Hw|rewrite !skipn_length; lia|].
      split; [|exact I]. cbn [sem sem_bop]. rewrite S1, S2. rewrite <- leaves_eqb_app by (rewrite !firstn_length; lia). rewrite !firstn_skipn. reflexivity. }
    pose proof (f2_len _ _ _ _ _ Hv) as L1. pose proof (f2_len _ _ _ _ _ Hw) as L2.
    destruct v as [|x [|x' v']], w as [|y [|y' w']]; cbn [length] in L1, L2; try (exfalso; lia).
    + injection H as <-. destruct a, b; try discriminate L1; try discriminate L2. split; reflexivity.
    + cbn [conj_tree] in H. inversion Hv as [|? a0 ? a' Hx Hr]; inversion Hw as [|? b0 ? b' Hy Hs]; subst. inversion Hr; inversion Hs; subst. cbn [leaves_eqb]. rewrite andb_true_r. eapply zeq_ok; eauto.
    + cbn [conj_tree] in H. destruct (length (x :: x' :: v') =? length (y :: y' :: w'))%nat; [|discriminate H]. apply (G (length (x :: x' :: v') / 2)%nat). exact H.
Qed.

(** ** Select *)
Lemma f2_flat_map_inv : forall A B C (R : A -> B -> Prop) (f : C -> list B) l zs, Forall2 R zs (flat_map f l) -> exists cs, zs = concat cs /\ Forall2 (fun c v => Forall2 R c (f v)) cs l.
Proof.
  intros A B C R f. induction l as [|v l IH]; intros zs H; cbn [flat_map] in H; [inversion H; exists []; split; [reflexivity|constructor]|].
  apply Forall2_app_inv_r in H as [a [b [H1 [H2 ->]]]]. destruct (IH _ H2) as [cs [-> H3]]. exists (a :: cs). split; [reflexivity|constructor; assumption].
Qed.
Lemma f2_concat : forall A B C (R : A -> B -> Prop) (f : C -> list B) l cs, Forall2 (fun c v => Forall2 R c (f v)) cs l -> Forall2 R (concat cs) (flat_map f l).
Proof. intros A B C R f l cs H. induction H; cbn [concat flat_map]; [constructor|]. apply Forall2_app; assumption. Qed.
Lemma zchunks_blocks : forall k (ls : list (list zexp)) fuel, k <> O -> Forall (fun l => length l = k) ls -> (length (concat ls) <= fuel)%nat -> zchunks fuel k (concat ls) = ls.
Proof.
  intros k ls. induction ls as [|l ls IH]; intros fuel K H L; [destruct fuel; reflexivity|]. inversion H as [|? ? H1 H2]; subst. cbn [concat] in *. rewrite app_length in L. destruct fuel as [|fuel]; [lia|].
  cbn [zchunks]. destruct l as [|z l]; [contradiction K; reflexivity|]. cbn [app]. change (z :: l ++ concat ls) with ((z :: l) ++ concat ls).
  rewrite firstn_app, firstn_all, Nat.sub_diag, skipn_app, skipn_all, Nat.sub_diag. cbn [firstn skipn app]. rewrite app_nil_r. f_equal. apply IH; [exact K|exact H2|cbn [length] in L; lia].
Qed.
Definition dz : zexp := ZBVal true.
Lemma map_nth_seq : forall A (d : A) l, l = map (fun j => nth j l d) (seq 0 (length l)).
Proof.
  intros A d l. apply nth_ext with (d := d) (d' := d); [rewrite map_length, seq_length; reflexivity|]. intros n H. rewrite (nth_indep (map (fun j => nth j l d) (seq 0 (length l))) d (nth 0 l d)) by (rewrite map_length, seq_length; exact H).
  rewrite (map_nth (fun j => nth j l d) (seq 0 (length l)) 0%nat n), seq_nth by exact H. reflexivity.
Qed.
Lemma combine_map2 : forall A B C (f : A -> B) (g : A -> C) l, combine (map f l) (map g l) = map (fun x => (f x, g x)) l.
Proof. induction l as [|x l IH]; [reflexivity|]. cbn. rewrite IH. reflexivity. Qed.
Lemma transpose_eq : forall size cs, Forall (fun c => length c = size) cs -> transpose size cs = map (fun j => map (fun c => nth j c dz) cs) (seq 0 size).
Proof.
  intros size cs. unfold transpose. induction cs as [|c cs IH] using rev_ind; intros H.
  - cbn [fold_left]. generalize 0%nat. induction size as [|n IHn]; intros k; [reflexivity|]. cbn [repeat seq map]. rewrite (IHn (Forall_nil _) (S k)). reflexivity.
  - apply Forall_app in H as [H1 H2]. inversion H2 as [|? ? L _]; subst. rewrite fold_left_app. cbn [fold_left]. rewrite (IH H1). rewrite (map_nth_seq _ dz c) at 2. rewrite combine_map2, map_map. apply map_ext. intros j. cbn [fst snd]. rewrite map_app. reflexivity.
Qed.
Lemma nth_flat_map : forall A B (f : A -> list B) l k v n, nth_error l k = Some v -> Forall (fun v => length (f v) = n) l -> exists a c, flat_map f l = a ++ f v ++ c /\ length a = (k * n)%nat.
Proof.
  intros A B f. induction l as [|u l IH]; intros [|k] v n H F; try discriminate H; inversion F as [|? ? F1 F2]; subst.
  - injection H as ->. exists [], (flat_map f l). split; reflexivity.
  - destruct (IH k v _ H F2) as [a [c [E L]]]. exists (f u ++ a), c. cbn [flat_map]. rewrite E, <- app_assoc. split; [reflexivity|]. rewrite app_length, L. reflexivity.
Qed.
Lemma zselect_ok : forall zr i col vs n z v, zselect i col = Some z -> Forall2 (rp zr) col vs -> sem zr i = Some (VU (Z.of_nat n)) -> nth_error vs n = Some v -> rp zr z v.
Proof.
  intros zr i col vs n z v H F I N. destruct col as [|z0 col]; [discriminate H|]. unfold zselect in H. destruct (forallb _ (z0 :: col)) eqn:A; [|discriminate H]. injection H as <-. split.
  - cbn [sem]. rewrite I. pose proof (rp_sem _ _ _ F) as S. unfold sem_list in S. rewrite S. rewrite Nat2Z.id. destruct (0 <=? Z.of_nat n) eqn:E; [exact N|apply Z.leb_gt in E; lia].
  - cbn [zkind]. rewrite forallb_forall in A. apply nth_error_In in N as M.
    assert (Q : exists z1, In z1 (z0 :: col) /\ rp zr z1 v). { clear - F N. revert n N. induction F as [|a b l m R _ IH]; intros [|n] N; try discriminate N; [injection N as ->; exists a; split; [left; reflexivity|exact R]|]. destruct (IH n N) as [q [Q1 Q2]]. exists q. split; [right; exact Q1|exact Q2]. }
    destruct Q as [z1 [Q1 [_ K]]]. specialize (A z1 Q1). destruct (zkind z0), (zkind z1); try discriminate A; destruct v; try contradiction; exact Logic.I.
Qed.
Lemma zsel_ok : forall zr ty l zs i k r v, Forall (fun v => has_type v ty) l -> Forall2 (rp zr) zs (flat_map flat_val l) -> sem zr i = Some (VU (Z.of_nat k)) -> nth_error l k = Some v -> zsel (prim_count ty) zs i = Some r -> Forall2 (rp zr) r (flat_val v).
Proof.
  intros zr ty l zs i k r v Hl Hz I N H.
  assert (G : match prim_count ty with O => None | _ => mapO (zselect i) (transpose (prim_count ty) (zchunks (length zs) (prim_count ty) zs)) end = Some r -> Forall2 (rp zr) r (flat_val v)).
  { clear H. intros H. assert (K : prim_count ty <> O) by (destruct (prim_count ty); [discriminate H|lia]).
    assert (H' : mapO (zselect i) (transpose (prim_count ty) (zchunks (length zs) (prim_count ty) zs)) = Some r) by (destruct (prim_count ty); [discriminate H|exact H]). clear H. rename H' into H.
    destruct (f2_flat_map_inv _ _ _ _ _ _ _ Hz) as [cs [-> Hc]].
    assert (Lc : Forall (fun c => length c = prim_count ty) cs). { clear - Hl Hc. induction Hc as [|c u cs l R _ IH]; [constructor|]. inversion Hl; subst. constructor; [rewrite (f2_len _ _ _ _ _ R); apply flat_val_length; assumption|apply IH; assumption]. }
    rewrite (zchunks_blocks (prim_count ty) cs (length (concat cs)) K Lc (le_n _)) in H. rewrite (transpose_eq _ _ Lc) in H.
    assert (Lv : length (flat_val v) = prim_count ty). { apply flat_val_length. rewrite Forall_forall in Hl. apply Hl. eapply nth_error_In; eauto. }
    rewrite (map_nth_seq _ (VB true) (flat_val v)), Lv. clear Lv.
    assert (M : forall js r, mapO (zselect i) (map (fun j => map (fun c => nth j c dz) cs) js) = Some r -> (forall j, In j js -> (j < prim_count ty)%nat) -> Forall2 (rp zr) r (map (fun j => nth j (flat_val v) (VB true)) js)).
    { clear r H. induction js as [|j js IHj]; intros r H J; [injection H as <-; constructor|]. cbn [map] in H. change (obind (zselect i (map (fun c => nth j c dz) cs)) (fun b => obind (mapO (zselect i) (map (fun j => map (fun c => nth j c dz) cs) js)) (fun s => Some (b :: s))) = Some r) in H.
      destruct (zselect i (map (fun c => nth j c dz) cs)) as [z|] eqn:E; [|discriminate H]. cbn [obind] in H. destruct (mapO _ _) as [s|] eqn:E2; [|discriminate H]. injection H as <-. cbn [map]. constructor; [|apply IHj; [reflexivity|intros q Q; apply J; right; exact Q]].
      eapply (zselect_ok zr i _ (map (fun u => nth j (flat_val u) (VB true)) l) k); [exact E| |exact I|rewrite nth_error_map, N; reflexivity].
      specialize (J j (or_introl eq_refl)). clear - Hc Lc J. induction Hc as [|c u cs l R _ IH]; [constructor|]. inversion Lc as [|? ? L1 L2]; subst. cbn [map]. constructor; [|apply IH; exact L2]. clear - R J L1. assert (J' : (j < length c)%nat) by lia. clear J L1. revert j J'. induction R as [|a b c m Q _ IH]; intros j J; [cbn in J; lia|]. destruct j as [|j]; [exact Q|]. cbn [nth]. apply IH. cbn [length] in J. lia. }
    apply M; [exact H|]. intros j J. apply in_seq in J. lia. }
  destruct i; try (apply G; exact H). clear G. cbn [sem] in I. injection I as ->. unfold zsel in H. rewrite Nat2Z.id in H.
  destruct (nth_flat_map _ _ flat_val l k v (prim_count ty) N) as [a1 [c1 [E L]]]; [revert Hl; apply Forall_impl; intros u; apply flat_val_length|].
  rewrite E in Hz. eapply slice_rps; [exact Hz|exact H|exact L|]. rewrite (flat_val_length ty v); [lia|]. rewrite Forall_forall in Hl. apply Hl. eapply nth_error_In; eauto.
Qed.
End Ops.
