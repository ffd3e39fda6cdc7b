(** Model of the comparison of arrays: /repo/zokrates_analysis/src/boolean_array_comparator.rs (boolean arrays are packed
    into field elements) and /repo/zokrates_analysis/src/flatten_complex_types.rs:1172-1220 (equality of flattened
    arrays is a tree of conjunctions). An array is represented by the list of its flattened elements, so that
    select(array, i) for a literal i is the i-th element (flatten_complex_types.rs:932-937). *)
From Coq Require Import ZArith NArith List Bool Lia Arith.
From Verif Require Import PField IR Interp Bits Zir.
Import ListNotations.
Open Scope Z_scope.

Section ArrayCmp.
Context {PF : PrimeField}.
Add Ring FringAC : F_ring_th.

(** slice::chunks; [k] is a bound on the number of chunks *)
Fixpoint chunks_fuel {A} (k n : nat) (l : list A) : list (list A) :=
  match k, l with
  | S k', _ :: _ => firstn n l :: chunks_fuel k' n (skipn n l)
  | _, _ => []
  end.
Definition chunks {A} (n : nat) (l : list A) : list (list A) := chunks_fuel (length l) n l.

(** boolean_array_comparator.rs:12-18 sum_rec; [k] bounds the depth *)
Fixpoint sum_rec (k : nat) (l : list zexp) : zexp :=
  match l with
  | [] => ZFVal f0
  | [a] => a
  | _ => match k with
         | O => ZFVal f0
         | S k' => let h := (length l / 2)%nat in ZFBin FAdd (sum_rec k' (firstn h l)) (sum_rec k' (skipn h l))
         end
  end.

(** l.57-78: the first element of a chunk is the most significant *)
Fixpoint weights (l : list zexp) : list zexp :=
  match l with
  | [] => []
  | c :: r => ZCond KF c (ZPow (ZFVal (of_Z 2)) (N.of_nat (length r))) (ZFVal f0) :: weights r
  end.
Definition pack_chunk (l : list zexp) : zexp := sum_rec (length l) (weights l).
(** l.53-85 process, with chunk_size = get_required_bits() - 1 *)
Definition pack (l : list zexp) : list zexp := map pack_chunk (chunks (required_bits - 1) l).

(** flatten_complex_types.rs:1172-1205 conjunction_tree *)
Definition elem_eq (v w : zexp) : zexp :=
  match zkind v with KF => ZCmp CFEq v w | KB => ZBBin BEq v w | KU _ => ZCmp CUEq v w end.
Fixpoint conj_tree (k : nat) (v w : list zexp) : zexp :=
  match v, w with
  | [], _ => ZBVal true
  | [a], [b] => elem_eq a b
  | _, _ => match k with
            | O => ZBVal true
            | S k' => let h := (length v / 2)%nat in
                      ZBBin BAnd (conj_tree k' (firstn h v) (firstn h w)) (conj_tree k' (skipn h v) (skipn h w))
            end
  end.
Definition array_eq (v w : list zexp) : zexp := conj_tree (length v) v w.
(** boolean_array_comparator.rs:31-99 on an equality between boolean arrays *)
Definition bool_array_eq (v w : list zexp) : zexp := array_eq (pack v) (pack w).

(** ** Proofs *)
Lemma Forall2_length : forall A B (P : A -> B -> Prop) l m, Forall2 P l m -> length l = length m.
Proof. intros A B P l m H. induction H; cbn; congruence. Qed.
Lemma chunks_fuel_concat : forall A k n (l : list A), (0 < n)%nat -> (length l <= k)%nat -> concat (chunks_fuel k n l) = l.
Proof.
  intros A. induction k as [|k IH]; intros n l Hn Hl; [destruct l; [reflexivity|cbn in Hl; lia]|].
  destruct l as [|a l]; [reflexivity|]. cbn [chunks_fuel concat]. rewrite IH; [apply firstn_skipn|exact Hn|].
  rewrite skipn_length. cbn [length] in *. lia.
Qed.
Lemma chunks_fuel_small : forall A k n (l : list A), Forall (fun c => (length c <= n)%nat) (chunks_fuel k n l).
Proof.
  intros A. induction k as [|k IH]; intros n l; [constructor|]. destruct l as [|a l]; [constructor|].
  cbn [chunks_fuel]. constructor; [apply firstn_le_length|apply IH].
Qed.
Lemma chunks_fuel_shape : forall A B k n (l : list A) (m : list B), length l = length m ->
  map (@length A) (chunks_fuel k n l) = map (@length B) (chunks_fuel k n m).
Proof.
  intros A B. induction k as [|k IH]; intros n l m E; [reflexivity|]. destruct l as [|a l], m as [|b m]; try discriminate E; [reflexivity|].
  cbn [chunks_fuel map]. rewrite !firstn_length, E. f_equal. apply IH. rewrite !skipn_length, E. reflexivity.
Qed.
Lemma chunks_fuel_map : forall A B (f : A -> B) k n (l : list A), chunks_fuel k n (map f l) = map (map f) (chunks_fuel k n l).
Proof.
  intros A B f. induction k as [|k IH]; intros n l; [reflexivity|]. destruct l as [|a l]; [reflexivity|].
  cbn [chunks_fuel map]. rewrite <- firstn_map, <- IH, <- skipn_map. reflexivity.
Qed.

Fixpoint fsum (l : list F) : F := match l with [] => f0 | x :: r => fadd x (fsum r) end.
Lemma fsum_app : forall a b, fsum (a ++ b) = fadd (fsum a) (fsum b).
Proof. induction a as [|x a IH]; intros b; cbn [app fsum]; [ring|]. rewrite IH. ring. Qed.

Lemma half_lt : forall n, (2 <= n)%nat -> (1 <= n / 2)%nat /\ (n / 2 < n)%nat.
Proof. intros n H. split; [apply Nat.div_le_lower_bound; lia|apply Nat.div_lt; lia]. Qed.

Lemma f2_split : forall A B (P : A -> B -> Prop) h l m, Forall2 P l m -> Forall2 P (firstn h l) (firstn h m) /\ Forall2 P (skipn h l) (skipn h m).
Proof.
  intros A B P h l m H. revert h. induction H; intros [|h]; cbn; try (split; constructor; auto; fail).
  destruct (IHForall2 h). split; [constructor; auto|auto].
Qed.

Lemma sum_rec_sem : forall rho k l vs, (length l <= S k)%nat -> Forall2 (fun e v => sem rho e = Some (VF v)) l vs -> sem rho (sum_rec k l) = Some (VF (fsum vs)).
Proof.
  intros rho. induction k as [|k IH]; intros l vs Hl H.
  - destruct H as [|e v l vs He H]; [reflexivity|]. destruct H; [|cbn in Hl; lia]. cbn. rewrite He. do 2 f_equal. ring.
  - destruct H as [|e v l vs He H]; [reflexivity|]. destruct H as [|e' v' l vs He' H].
    + cbn. rewrite He. do 2 f_equal. ring.
    + assert (G : Forall2 (fun e v => sem rho e = Some (VF v)) (e :: e' :: l) (v :: v' :: vs)) by (repeat constructor; assumption).
      remember (e :: e' :: l) as L eqn:EL. remember (v :: v' :: vs) as V eqn:EV.
      assert (L2 : (2 <= length L)%nat) by (subst L; cbn; lia).
      assert (Hs : sum_rec (S k) L = ZFBin FAdd (sum_rec k (firstn (length L / 2) L)) (sum_rec k (skipn (length L / 2) L))) by (subst L; reflexivity).
      assert (Hl2 : (length L <= S (S k))%nat) by (subst L; exact Hl). rewrite Hs. cbn [sem]. destruct (half_lt (length L) L2) as [h1 h2].
      pose proof (f2_split _ _ _ (length L / 2) _ _ G) as G1.
      destruct G1 as [G1 G2]. rewrite (IH (firstn (length L / 2) L) (firstn (length L / 2) V) ltac:(rewrite firstn_length; lia) G1), (IH (skipn (length L / 2) L) (skipn (length L / 2) V) ltac:(rewrite skipn_length; lia) G2).
      cbn [sem_fop]. rewrite <- fsum_app, firstn_skipn. reflexivity.
Qed.

Definition bits_at (rho : env_s) (es : list zexp) (bs : list bool) : Prop := Forall2 (fun e b => sem rho e = Some (VB b)) es bs.

Lemma pow2_field : forall n, of_Z (fval (of_Z 2) ^ Z.of_N (N.of_nat n)) = of_Z (pow2 n).
Proof.
  intros n. unfold pow2. rewrite nat_N_Z. rewrite fval_of_Z. apply of_Z_eq. induction n as [|n IH]; [reflexivity|].
  rewrite Nat2Z.inj_succ, !Z.pow_succ_r by lia. pose proof pp_gt1. rewrite Z.mul_mod, IH, Zmod_mod, <- Z.mul_mod by lia. reflexivity.
Qed.
Lemma weights_sem : forall rho es bs, bits_at rho es bs ->
  exists vs, Forall2 (fun e v => sem rho e = Some (VF v)) (weights es) vs /\ fsum vs = of_Z (bv bs).
Proof.
  intros rho es bs H. induction H as [|e b es bs He H [vs [IH1 IH2]]]; [exists []; split; [constructor|reflexivity]|].
  exists ((if b then of_Z (pow2 (length bs)) else f0) :: vs). split.
  - cbn [weights]. constructor; [|exact IH1]. cbn [sem]. rewrite He, pow2_field, (Forall2_length _ _ _ _ _ H). destruct b; reflexivity.
  - cbn [fsum]. rewrite IH2, bv_cons, of_Z_add. destruct b; reflexivity.
Qed.
Lemma weights_length : forall es, length (weights es) = length es.
Proof. induction es; cbn; congruence. Qed.
Lemma pack_chunk_sem : forall rho es bs, bits_at rho es bs -> sem rho (pack_chunk es) = Some (VF (of_Z (bv bs))).
Proof.
  intros rho es bs H. destruct (weights_sem _ _ _ H) as [vs [H1 H2]]. unfold pack_chunk.
  rewrite (sum_rec_sem rho (length es) (weights es) vs); [rewrite H2; reflexivity|rewrite weights_length; lia|exact H1].
Qed.

(** two lists of chunks with the same shape are equal iff their field values are *)
Lemma pack_chunk_kind : forall es, zkind (pack_chunk es) = KF.
Proof.
  intros es. unfold pack_chunk. assert (G : Forall (fun e => zkind e = KF) (weights es)) by (induction es; cbn [weights]; constructor; auto).
  destruct (weights es) as [|a [|b l]] eqn:E; destruct (length es) as [|k] eqn:L; cbn; try reflexivity; inversion G; assumption.
Qed.

(** The tree of conjunctions over elements of one kind. *)
Definition eq_sem (rho : env_s) (e1 e2 : zexp) (b : bool) : Prop := sem rho (elem_eq e1 e2) = Some (VB b).
Lemma forallb_app' : forall (a b : list bool), forallb (fun x => x) (a ++ b) = forallb (fun x => x) a && forallb (fun x => x) b.
Proof. intros. apply forallb_app. Qed.

Inductive eq3 (rho : env_s) : list zexp -> list zexp -> list bool -> Prop :=
| eq3_nil : eq3 rho [] [] []
| eq3_cons : forall a b c l m n, eq_sem rho a b c -> eq3 rho l m n -> eq3 rho (a :: l) (b :: m) (c :: n).
Lemma eq3_split : forall rho h l m n, eq3 rho l m n -> eq3 rho (firstn h l) (firstn h m) (firstn h n) /\ eq3 rho (skipn h l) (skipn h m) (skipn h n).
Proof.
  intros rho h l m n H. revert h. induction H; intros [|h]; cbn; try (split; constructor; auto; fail).
  destruct (IHeq3 h). split; [constructor; auto|auto].
Qed.
Lemma eq3_len : forall rho l m n, eq3 rho l m n -> length m = length l /\ length n = length l.
Proof. intros rho l m n H. induction H as [|? ? ? ? ? ? ? ? [E1 E2]]; cbn; lia. Qed.
Lemma conj_tree_sem : forall rho k l m n, (length l <= S k)%nat -> eq3 rho l m n -> sem rho (conj_tree k l m) = Some (VB (forallb (fun x => x) n)).
Proof.
  intros rho. induction k as [|k IH]; intros l m n Hl H.
  - destruct H as [|a b c l m n Hc H]; [reflexivity|]. destruct H; [|cbn in Hl; lia]. cbn [conj_tree forallb]. rewrite andb_true_r. exact Hc.
  - destruct H as [|a b c l m n Hc H]; [reflexivity|]. destruct H as [|a' b' c' l m n Hc' H].
    + cbn [conj_tree forallb]. rewrite andb_true_r. exact Hc.
    + assert (G : eq3 rho (a :: a' :: l) (b :: b' :: m) (c :: c' :: n)) by (repeat constructor; assumption).
      set (L := a :: a' :: l) in *. set (M := b :: b' :: m) in *. set (N := c :: c' :: n) in *.
      change (conj_tree (S k) L M) with (ZBBin BAnd (conj_tree k (firstn (length L / 2) L) (firstn (length L / 2) M)) (conj_tree k (skipn (length L / 2) L) (skipn (length L / 2) M))).
      destruct (half_lt (length L) ltac:(cbn; lia)) as [h1 h2]. cbn [sem].
      destruct (eq3_split rho (length L / 2) L M N G) as [G1 G2].
      rewrite (IH (firstn (length L / 2) L) (firstn (length L / 2) M) (firstn (length L / 2) N) ltac:(rewrite firstn_length; lia) G1), (IH (skipn (length L / 2) L) (skipn (length L / 2) M) (skipn (length L / 2) N) ltac:(rewrite skipn_length; lia) G2).
      cbn [sem_bop]. rewrite <- forallb_app', firstn_skipn. reflexivity.
Qed.

(** Values of one type, and their equality. *)
Definition veqb (a b : val) : bool :=
  match a, b with VF x, VF y => Feqb x y | VB x, VB y => eqb x y | VU x, VU y => x =? y | _, _ => false end.
Definition kind_val (k : kind) (v : val) : Prop :=
  match k, v with KF, VF _ | KB, VB _ | KU _, VU _ => True | _, _ => False end.
Lemma veqb_eq : forall a b, veqb a b = true <-> a = b.
Proof.
  intros [x|x|x] [y|y|y]; cbn; split; intros H; try discriminate H; try congruence.
  - f_equal. apply F_ext. apply Z.eqb_eq. exact H.
  - injection H as ->. apply Z.eqb_refl.
  - apply eqb_prop in H. congruence.
  - injection H as ->. destruct y; reflexivity.
  - apply Z.eqb_eq in H. congruence.
  - injection H as ->. apply Z.eqb_refl.
Qed.
Fixpoint vals_eqb (a b : list val) : bool :=
  match a, b with [], [] => true | x :: r, y :: s => veqb x y && vals_eqb r s | _, _ => false end.
Lemma vals_eqb_eq : forall a b, vals_eqb a b = true <-> a = b.
Proof.
  induction a as [|x a IH]; intros [|y b]; cbn; split; intros H; try discriminate H; try reflexivity.
  - apply andb_prop in H. destruct H as [H1 H2]. apply veqb_eq in H1. apply IH in H2. congruence.
  - injection H as -> ->. rewrite (proj2 (veqb_eq y y) eq_refl), (proj2 (IH b) eq_refl). reflexivity.
Qed.
Definition typed_elem (rho : env_s) (e : zexp) (v : val) : Prop := sem rho e = Some v /\ kind_val (zkind e) v.

Lemma eq3_intro : forall rho l m vs ws, Forall2 (typed_elem rho) l vs -> Forall2 (typed_elem rho) m ws ->
  Forall2 (fun e1 e2 => zkind e1 = zkind e2 \/ exists a b, zkind e1 = KU a /\ zkind e2 = KU b) l m ->
  exists n, eq3 rho l m n /\ forallb (fun x => x) n = vals_eqb vs ws.
Proof.
  intros rho l m vs ws H. revert m ws. induction H as [|e v l vs [He Hk] H IH]; intros m ws Hm Hlm; inversion Hlm; subst; inversion Hm; subst.
  - exists []. split; [constructor|reflexivity].
  - match goal with X : typed_elem rho y ?w |- _ => destruct X as [He' Hk']; rename w into w0 end.
    destruct (IH _ _ H6 H4) as [n [N1 N2]]. exists (veqb v w0 :: n). split; [|cbn; rewrite N2; reflexivity]. constructor; [|exact N1].
    unfold eq_sem, elem_eq. destruct H2 as [E|[a [b [E1 E2]]]].
    + rewrite <- E in Hk'. destruct (zkind e) eqn:K; destruct v; try contradiction; destruct w0; try contradiction; cbn [sem]; rewrite He, He'; reflexivity.
    + rewrite E1 in *. rewrite E2 in Hk'. destruct v; try contradiction; destruct w0; try contradiction; cbn [sem]; rewrite He, He'; reflexivity.
Qed.

Theorem array_eq_sem : forall rho l m vs ws, Forall2 (typed_elem rho) l vs -> Forall2 (typed_elem rho) m ws ->
  Forall2 (fun e1 e2 => zkind e1 = zkind e2 \/ exists a b, zkind e1 = KU a /\ zkind e2 = KU b) l m ->
  sem rho (array_eq l m) = Some (VB (vals_eqb vs ws)).
Proof.
  intros rho l m vs ws H1 H2 H3. destruct (eq3_intro rho l m vs ws H1 H2) as [n [N1 N2]].
  - exact H3.
  - unfold array_eq. rewrite (conj_tree_sem rho _ l m n); [rewrite N2; reflexivity|lia|exact N1].
Qed.

Lemma chunk_f2 : forall rho k n es bs, bits_at rho es bs -> Forall2 (bits_at rho) (chunks_fuel k n es) (chunks_fuel k n bs).
Proof.
  intros rho. induction k as [|k IH]; intros n es bs H; [constructor|]. destruct H as [|e b es bs He H]; [constructor|]. cbn [chunks_fuel].
  assert (G : bits_at rho (e :: es) (b :: bs)) by (constructor; assumption). destruct (f2_split _ _ _ n _ _ G) as [G1 G2].
  constructor; [exact G1|apply IH; exact G2].
Qed.
Lemma pack_sem : forall rho es bs, bits_at rho es bs ->
  Forall2 (typed_elem rho) (pack es) (map (fun c => VF (of_Z (bv c))) (chunks (required_bits - 1) bs)).
Proof.
  intros rho es bs H. unfold pack, chunks. rewrite (Forall2_length _ _ _ _ _ H). generalize (chunk_f2 rho (length bs) (required_bits - 1) es bs H). generalize (chunks_fuel (length bs) (required_bits - 1) es) as c1, (chunks_fuel (length bs) (required_bits - 1) bs) as c2.
  intros c1 c2 G. induction G as [|x y c1 c2 Hxy G IH]; cbn [map]; constructor; [|exact IH]. split; [apply pack_chunk_sem; exact Hxy|rewrite pack_chunk_kind; exact I].
Qed.
Lemma vals_eqb_chunks : forall c1 c2, map (@length bool) c1 = map (@length bool) c2 -> Forall (fun c => (length c <= required_bits - 1)%nat) c1 ->
  vals_eqb (map (fun c => VF (of_Z (bv c))) c1) (map (fun c => VF (of_Z (bv c))) c2) = true <-> c1 = c2.
Proof.
  intros c1 c2 E S. rewrite vals_eqb_eq. split; [|congruence]. revert c2 E. induction S as [|x c1 Hx S IH]; intros [|y c2] E H; cbn in *; try discriminate E; [reflexivity|].
  injection E as E1 E2. injection H as H1 H2. f_equal; [|apply IH; auto].
  apply bv_inj; [exact E1|]. change ((bv x) mod pp = (bv y) mod pp) in H1. pose proof (bv_range x). pose proof (bv_range y).
  pose proof required_bits_bounds. assert (pow2 (length x) <= pow2 (required_bits - 1)) by (apply pow2_le; lia). rewrite <- E1 in *. rewrite !Z.mod_small in H1 by lia. exact H1.
Qed.

Theorem bool_array_eq_sem : forall rho l m bs cs, length l = length m -> bits_at rho l bs -> bits_at rho m cs ->
  exists b, sem rho (bool_array_eq l m) = Some (VB b) /\ (b = true <-> bs = cs).
Proof.
  intros rho l m bs cs E H1 H2. pose proof (Forall2_length _ _ _ _ _ H1) as L1. pose proof (Forall2_length _ _ _ _ _ H2) as L2.
  eexists. split.
  - unfold bool_array_eq. apply array_eq_sem; [apply pack_sem; exact H1|apply pack_sem; exact H2|].
    unfold pack, chunks. rewrite <- E. generalize (chunks_fuel_shape _ _ (length l) (required_bits - 1) l m E).
    generalize (chunks_fuel (length l) (required_bits - 1) l) as c1, (chunks_fuel (length l) (required_bits - 1) m) as c2.
    induction c1 as [|x c1 IH]; intros [|y c2] S; try discriminate S; constructor; [|apply IH; injection S; auto]. left. rewrite !pack_chunk_kind. reflexivity.
  - pose proof required_bits_pos as RB. unfold chunks. rewrite <- L1, <- L2, <- E.
    rewrite vals_eqb_chunks; [|apply chunks_fuel_shape; congruence|apply chunks_fuel_small].
    split; [|congruence]. intros X. apply (f_equal (@concat bool)) in X. rewrite !chunks_fuel_concat in X by lia. exact X.
Qed.
End ArrayCmp.
