(** Finite maps keyed by variable ids, as association lists sorted by key.
    Models std::collections::BTreeMap<Variable, _> (used for CanonicalLinComb and Witness):
    iteration is in increasing key order. *)
From Coq Require Import ZArith List Bool Lia Sorting.Sorted.
Import ListNotations.
Open Scope Z_scope.

Section SMap.
Context {V : Type}.
Definition smap := list (Z * V).

(** BTreeMap::get *)
Fixpoint sget (k : Z) (m : smap) : option V :=
  match m with
  | [] => None
  | (k', v) :: r => if k =? k' then Some v else sget k r
  end.

(** BTreeMap::insert (overwrites) *)
Fixpoint sput (k : Z) (v : V) (m : smap) : smap :=
  match m with
  | [] => [(k, v)]
  | (k', v') :: r => if k <? k' then (k, v) :: (k', v') :: r
                     else if k =? k' then (k, v) :: r
                     else (k', v') :: sput k v r
  end.

(** BTreeMap::remove *)
Fixpoint sdel (k : Z) (m : smap) : smap :=
  match m with
  | [] => []
  | (k', v') :: r => if k =? k' then r else (k', v') :: sdel k r
  end.

(** Invariant: strictly increasing keys. *)
Inductive ssorted : smap -> Prop :=
| ss_nil : ssorted []
| ss_cons : forall k v r, Forall (fun kv => k < fst kv) r -> ssorted r -> ssorted ((k, v) :: r).

Lemma sput_Forall : forall (P : Z * V -> Prop) k v m, P (k, v) -> Forall P m -> Forall P (sput k v m).
Proof.
  induction m as [|[k' v'] r IH]; intros Hk Hm; simpl; [constructor; auto|].
  inversion Hm as [|? ? H1 H2]; subst.
  destruct (k <? k'); [constructor; auto|]. destruct (k =? k'); constructor; auto.
Qed.

Lemma sput_sorted : forall k v m, ssorted m -> ssorted (sput k v m).
Proof.
  intros k v m H; induction H as [|k' v' r Hf Hs IH]; simpl.
  - constructor; constructor.
  - destruct (Z.ltb_spec k k').
    + constructor; [|constructor; auto]. constructor; [simpl; lia|].
      eapply Forall_impl; [|exact Hf]. simpl; intros; lia.
    + destruct (Z.eqb_spec k k').
      * subst; constructor; auto.
      * constructor; auto. apply sput_Forall; auto. simpl; lia.
Qed.

Lemma sdel_Forall : forall (P : Z * V -> Prop) k m, Forall P m -> Forall P (sdel k m).
Proof.
  induction m as [|[k' v'] r IH]; intros Hm; simpl; auto.
  inversion Hm; subst. destruct (k =? k'); auto.
Qed.

Lemma sdel_sorted : forall k m, ssorted m -> ssorted (sdel k m).
Proof.
  intros k m H; induction H as [|k' v' r Hf Hs IH]; simpl; [constructor|].
  destruct (k =? k'); auto. constructor; auto. apply sdel_Forall; auto.
Qed.

Lemma sget_sput_eq : forall k v m, sget k (sput k v m) = Some v.
Proof.
  induction m as [|[k' v'] r IH]; simpl; [rewrite Z.eqb_refl; auto|].
  destruct (Z.ltb_spec k k'); simpl; [rewrite Z.eqb_refl; auto|].
  destruct (Z.eqb_spec k k'); simpl; [rewrite Z.eqb_refl; auto|].
  destruct (Z.eqb_spec k k'); [contradiction|auto].
Qed.

Lemma sget_sput_ne : forall k k1 v m, k1 <> k -> sget k1 (sput k v m) = sget k1 m.
Proof.
  induction m as [|[k' v'] r IH]; intros Hne; simpl.
  - destruct (Z.eqb_spec k1 k); [contradiction|auto].
  - destruct (Z.ltb_spec k k'); simpl.
    + destruct (Z.eqb_spec k1 k); [contradiction|auto].
    + destruct (Z.eqb_spec k k'); simpl.
      * subst. destruct (Z.eqb_spec k1 k'); [contradiction|auto].
      * rewrite IH by auto. auto.
Qed.

Lemma sget_sput : forall k k1 v m, sget k1 (sput k v m) = if k1 =? k then Some v else sget k1 m.
Proof.
  intros. destruct (Z.eqb_spec k1 k) as [->|]; [apply sget_sput_eq|apply sget_sput_ne; auto].
Qed.

Lemma sget_lt_None : forall k m, Forall (fun kv => k < fst kv) m -> sget k m = None.
Proof.
  induction m as [|[k' v'] r IH]; intros H; auto. inversion H; subst; simpl in *.
  destruct (Z.eqb_spec k k'); [lia|auto].
Qed.

Lemma sget_sdel_eq : forall k m, ssorted m -> sget k (sdel k m) = None.
Proof.
  intros k m H; induction H as [|k' v' r Hf Hs IH]; simpl; auto.
  destruct (Z.eqb_spec k k').
  - subst. apply sget_lt_None; auto.
  - simpl. destruct (Z.eqb_spec k k'); [contradiction|auto].
Qed.

Lemma sget_sdel_ne : forall k k1 m, k1 <> k -> sget k1 (sdel k m) = sget k1 m.
Proof.
  induction m as [|[k' v'] r IH]; intros Hne; simpl; auto.
  destruct (Z.eqb_spec k k'); simpl.
  - subst. destruct (Z.eqb_spec k1 k'); [contradiction|auto].
  - rewrite IH; auto.
Qed.

Lemma sget_In : forall k v m, sget k m = Some v -> In (k, v) m.
Proof.
  induction m as [|[k' v'] r IH]; simpl; intros H; [discriminate|].
  destruct (Z.eqb_spec k k'); [left; congruence|right; auto].
Qed.

Lemma In_sget : forall k v m, ssorted m -> In (k, v) m -> sget k m = Some v.
Proof.
  intros k v m H; induction H as [|k' v' r Hf Hs IH]; simpl; intros Hin; [contradiction|].
  destruct Hin as [E|Hin].
  - inversion E; subst. rewrite Z.eqb_refl; auto.
  - rewrite Forall_forall in Hf. specialize (Hf _ Hin). simpl in Hf.
    destruct (Z.eqb_spec k k'); [lia|auto].
Qed.

(** Two sorted maps with the same lookups are equal (the BTreeMap is a function of its contents). *)
Lemma ssorted_ext : forall m1 m2, ssorted m1 -> ssorted m2 ->
  (forall k, sget k m1 = sget k m2) -> m1 = m2.
Proof.
  intros m1 m2 H1; revert m2; induction H1 as [|k v r Hf Hs IH]; intros m2 H2 Heq.
  - destruct m2 as [|[k v] r]; auto. specialize (Heq k). simpl in Heq. rewrite Z.eqb_refl in Heq. discriminate.
  - inversion H2 as [|k2 v2 r2 Hf2 Hs2]; subst.
    + specialize (Heq k). simpl in Heq. rewrite Z.eqb_refl in Heq. discriminate.
    + assert (E : k = k2).
      { destruct (Z.lt_trichotomy k k2) as [L|[E|L]]; auto; exfalso.
        - specialize (Heq k). simpl in Heq. rewrite Z.eqb_refl in Heq.
          destruct (Z.eqb_spec k k2); [lia|].
          rewrite (sget_lt_None k r2) in Heq; [discriminate|].
          eapply Forall_impl; [|exact Hf2]. simpl; intros; lia.
        - specialize (Heq k2). simpl in Heq. rewrite Z.eqb_refl in Heq.
          destruct (Z.eqb_spec k2 k); [lia|].
          rewrite (sget_lt_None k2 r) in Heq; [discriminate|].
          eapply Forall_impl; [|exact Hf]. simpl; intros; lia. }
      subst k2. pose proof (Heq k) as Hk. simpl in Hk. rewrite Z.eqb_refl in Hk.
      inversion Hk; subst v2. f_equal. apply IH; auto.
      intros k0. specialize (Heq k0). simpl in Heq.
      destruct (Z.eqb_spec k0 k); auto. subst.
      rewrite !sget_lt_None; auto.
Qed.
End SMap.
Arguments smap : clear implicits.
