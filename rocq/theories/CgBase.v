(** Reasoning principles for the code generator. *)
From Coq Require Import ZArith NArith List Bool Lia Field.
From Verif Require Import PField SMap IR IRSpec Interp Bits Flat FlatProofs Zir Codegen.
Import ListNotations.
Open Scope Z_scope.

Notation "x <- m ;; k" := (bind m (fun x => k)) (at level 61, m at next level, right associativity).
Notation "m ;;; k" := (bind m (fun _ => k)) (at level 61, right associativity).

(** Bound on the integer represented by an un-reduced (or reduced) uint result. *)
Definition ubound {PF : PrimeField} (a : ann) : Z :=
  match ured a with SRTrue => Z.min (fval (umax a)) (pow2 (uw a) - 1) | _ => fval (umax a) end.

Section Base.
Context {PF : PrimeField}.
Variable ext : Z -> list F -> option (list F).
Variable w : env.
(** whether [w] comes from an honest execution (the solvers' answers) *)
Variable HON : Prop.
Add Field Fcgb : F_field_th.

Notation solve := (exec_solver ext).

(** A list of flat expressions evaluates to a list of bits. *)
Definition EB (bits : list fexp) (bs : list bool) : Prop := map (feval w) bits = map f_of_bool bs.

Definition entry_ok (k : fexp) (bits : list fexp) (ex : bool) : Prop :=
  exists bs, EB bits bs /\ (length bits <= required_bits)%nat /\ (HON -> bv bs < pp) /\
    (bv bs < pp -> bv bs = fval (feval w k) mod pow2 (length bits) /\
                   (ex = true -> fval (feval w k) < pow2 (length bits))) /\
    (ex = true -> of_Z (bv bs) = feval w k).
Definition cache_ok (s : st) : Prop := Forall (fun e => entry_ok (fst e) (fst (snd e)) (snd (snd e))) (cache s).

(** A field value represents a source value. *)
Definition urep (a : ann) (n : Z) (x : F) : Prop :=
  exists N, 0 <= N <= ubound a /\ N < pp /\ N mod pow2 (uw a) = n /\ x = of_Z N.
Definition vrel (k : kind) (v : val) (x : F) : Prop :=
  match k, v with
  | KF, VF y => x = y
  | KB, VB b => x = f_of_bool b
  | KU a, VU n => urep a n x
  | _, _ => False
  end.

Definition tenv := ident -> option kind.
Definition lay_ok (rho : env_s) (G : tenv) (s : st) : Prop :=
  forall x k, G x = Some k -> exists v y, lookup x (lay s) = Some v /\ rho x = Some y /\ vrel k y (w v).
Definition Inv (rho : env_s) (G : tenv) (s : st) : Prop := cache_ok s /\ lay_ok rho G s.

(** Soundness and completeness of a code generation step, for a fixed assignment [w]. *)
Definition ok (rho : env_s) (G : tenv) (C : Prop) {A} (m : M A) (P : A -> Prop) : Prop :=
  forall s a s' em, Inv rho G s -> m s = Some (a, s', em) ->
    (Forall (gsat w) em -> (HON -> Forall (hon solve w) em) -> Inv rho G s' /\ P a) /\
    (HON -> C -> Forall (hon solve w) em -> Forall (fsat w) em).

Lemma hon_gsat : forall em, Forall (hon solve w) em -> Forall (fsat w) em -> Forall (gsat w) em.
Proof.
  induction em as [|s r IH]; intros H1 H2; constructor; inversion H1; inversion H2; subst; auto.
  destruct s; cbn in *; auto. contradiction.
Qed.
Lemma gsat_fsat : forall em, Forall (gsat w) em -> Forall (fsat w) em.
Proof. induction em as [|s r IH]; intros H; constructor; inversion H; subst; auto. destruct s; cbn in *; auto. Qed.

Section Rules.
Variables (rho : env_s) (G : tenv).
Notation OK := (ok rho G).

Lemma ok_ret : forall C A (a : A) (P : A -> Prop), P a -> OK C (ret a) P.
Proof. intros C A a P HP s a' s' em Hi E. injection E as <- <- <-. split; auto. Qed.
Lemma ok_fail : forall C A (P : A -> Prop), OK C fail P.
Proof. intros C A P s a s' em Hi E. discriminate. Qed.
Lemma ok_bind : forall (C : Prop) A B (m : M A) (k : A -> M B) P Q,
  OK C m P -> (forall a, P a -> OK C (k a) Q) -> OK C (bind m k) Q.
Proof.
  intros C A B m k P Q Hm Hk s b s' em Hi E. unfold bind in E.
  destruct (m s) as [[[a s1] o1]|] eqn:E1; [|discriminate].
  destruct (k a s1) as [[[b' s2] o2]|] eqn:E2; [|discriminate]. injection E as <- <- <-.
  destruct (Hm s a s1 o1 Hi E1) as [H1 H2]. split.
  - intros Hs Hh. apply Forall_app in Hs as [Hs1 Hs2].
    assert (Hh1 : HON -> Forall (hon solve w) o1) by (intros h; specialize (Hh h); apply Forall_app in Hh; tauto).
    assert (Hh2 : HON -> Forall (hon solve w) o2) by (intros h; specialize (Hh h); apply Forall_app in Hh; tauto).
    destruct (H1 Hs1 Hh1) as [Hi1 Pa].
    destruct (Hk a Pa s1 b' s2 o2 Hi1 E2) as [H3 _]. auto.
  - intros h HC Hh. apply Forall_app in Hh as [Hh1 Hh2]. specialize (H2 h HC Hh1).
    destruct (H1 (hon_gsat _ Hh1 H2) (fun _ => Hh1)) as [Hi1 Pa].
    destruct (Hk a Pa s1 b' s2 o2 Hi1 E2) as [_ H4]. apply Forall_app; auto.
Qed.
Lemma ok_weaken : forall (C : Prop) A (m : M A) (P Q : A -> Prop), OK C m P -> (forall a, P a -> Q a) -> OK C m Q.
Proof.
  intros C A m P Q Hm HPQ s a s' em Hi E. destruct (Hm s a s' em Hi E) as [H1 H2]. split; auto.
  intros Hs Hh. destruct (H1 Hs Hh); auto.
Qed.
Lemma ok_condC : forall (C C' : Prop) A (m : M A) P, (C -> C') -> OK C' m P -> OK C m P.
Proof.
  intros C C' A m P HC Hm s a s' em Hi E. destruct (Hm s a s' em Hi E) as [H1 H2]. split; auto.
Qed.
Lemma ok_assert : forall C b, OK C (assertM b) (fun _ => b = true).
Proof. intros C [|]; [apply ok_ret; auto|apply ok_fail]. Qed.
Lemma ok_emits : forall (C : Prop) l (P : unit -> Prop),
  (Forall (gsat w) l -> (HON -> Forall (hon solve w) l) -> P tt) ->
  (HON -> C -> Forall (hon solve w) l -> Forall (fsat w) l) -> OK C (emits l) P.
Proof. intros C l P H1 H2 s a s' em Hi E. injection E as <- <- <-. split; auto. Qed.
Lemma ok_emit : forall (C : Prop) x (P : unit -> Prop),
  (gsat w x -> (HON -> hon solve w x) -> P tt) -> (HON -> C -> hon solve w x -> fsat w x) -> OK C (emit x) P.
Proof.
  intros C x P H1 H2. apply ok_emits.
  - intros Hx Hh. inversion Hx; subst. apply H1; auto. intros h. specialize (Hh h). inversion Hh; auto.
  - intros h HC Hx. inversion Hx; subst. repeat constructor; auto.
Qed.
Lemma ok_fresh : forall C, OK C fresh (fun _ => True).
Proof. intros C s a s' em [Hc Hl] E. injection E as <- <- <-. split; [intros _ _; split; [split; auto|auto]|auto]. Qed.
Lemma ok_freshn : forall C n, OK C (freshn n) (fun vs => length vs = n).
Proof.
  intros C. induction n as [|n IH]; cbn [freshn]; [apply ok_ret; auto|].
  eapply ok_bind; [apply ok_fresh|]. intros v _. eapply ok_bind; [apply IH|]. intros vs Hv. apply ok_ret. cbn. auto.
Qed.
Lemma clookup_ok : forall k l bits ex, Forall (fun e => entry_ok (fst e) (fst (snd e)) (snd (snd e))) l ->
  clookup k l = Some (bits, ex) -> entry_ok k bits ex.
Proof.
  induction l as [|[k' [b e]] r IH]; intros bits ex Hl E; [discriminate|]. cbn [clookup] in E.
  inversion Hl as [|? ? H1 H2]; subst. destruct (fexp_eqb k k') eqn:Ek.
  - injection E as <- <-. apply fexp_eqb_eq in Ek. rewrite Ek. exact H1.
  - auto.
Qed.
Lemma ok_cget : forall C k, OK C (cget k) (fun r => forall bits ex, r = Some (bits, ex) -> entry_ok k bits ex).
Proof.
  intros C k s a s' em [Hc Hl] E. injection E as <- <- <-. split; [|auto]. intros _ _. split; [split; auto|].
  intros bits ex Hk. apply (clookup_ok k (cache s)); auto.
Qed.
Lemma ok_cput : forall C k bits ex, entry_ok k bits ex -> OK C (cput k bits ex) (fun _ => True).
Proof.
  intros C k bits ex He s a s' em [Hc Hl] E. injection E as <- <- <-. split; [|auto]. intros _ _.
  split; [split; [|auto]|auto]. constructor; auto.
Qed.
Lemma ok_get_lay : forall C x k, G x = Some k ->
  OK C (get_lay x) (fun v => exists y, rho x = Some y /\ vrel k y (w v)).
Proof.
  intros C x k Hx s a s' em [Hc Hl] E. unfold get_lay in E.
  destruct (lookup x (lay s)) as [v|] eqn:Ev; [|discriminate]. injection E as <- <- <-.
  split; [|auto]. intros _ _. split; [split; auto|]. destruct (Hl x k Hx) as [v' [y [H1 [H2 H3]]]].
  rewrite Ev in H1. injection H1 as <-. eauto.
Qed.

Lemma ok_newdef : forall C e, OK C (newdef e) (fun v => w v = feval w e).
Proof.
  intros C e. unfold newdef. eapply ok_bind; [apply ok_fresh|]. intros v _.
  eapply ok_bind; [apply (ok_emit C _ (fun _ => w v = feval w e)); cbn; auto|]. intros ? H. apply ok_ret. auto.
Qed.
Lemma ok_define : forall C e, OK C (define e) (fun v => w v = feval w e).
Proof. intros C e. destruct e; try apply (ok_newdef C). apply ok_ret. reflexivity. Qed.
Lemma ok_linearise : forall C e, OK C (linearise e) (fun e' => feval w e' = feval w e /\ is_linear e' = true).
Proof.
  intros C e. unfold linearise. destruct (is_linear e) eqn:El; [apply ok_ret; auto|].
  eapply ok_bind; [apply ok_newdef|]. intros v Hv. apply ok_ret. auto.
Qed.
Lemma ok_mapM : forall (C : Prop) A B (f : A -> M B) (P : A -> B -> Prop) l,
  (forall x, In x l -> OK C (f x) (P x)) -> OK C (mapM f l) (fun ys => Forall2 P l ys).
Proof.
  intros C A B f P. induction l as [|x r IH]; intros Hf; cbn [mapM]; [apply ok_ret; constructor|].
  eapply ok_bind; [apply Hf; left; auto|]. intros y Hy.
  eapply ok_bind; [apply IH; intros z Hz; apply Hf; right; auto|]. intros ys Hys. apply ok_ret. constructor; auto.
Qed.

Lemma EB_length : forall bits bs, EB bits bs -> length bits = length bs.
Proof. intros bits bs H. apply (f_equal (@length F)) in H. rewrite !map_length in H. auto. Qed.
Lemma EB_cons : forall x bits b bs, EB (x :: bits) (b :: bs) <-> feval w x = f_of_bool b /\ EB bits bs.
Proof. intros. unfold EB. cbn [map]. split; [intros H; injection H; auto|intros [-> ->]; auto]. Qed.
Lemma EB_inv : forall bits b bs, EB bits (b :: bs) -> exists x r, bits = x :: r /\ feval w x = f_of_bool b /\ EB r bs.
Proof. intros [|x r] b bs H; [discriminate|]. apply EB_cons in H as [H1 H2]. eauto 6. Qed.
Lemma EB_inv' : forall x r bs, EB (x :: r) bs -> exists b s, bs = b :: s /\ feval w x = f_of_bool b /\ EB r s.
Proof. intros x r [|b s] H; [discriminate|]. apply EB_cons in H as [H1 H2]. eauto 6. Qed.
Lemma EB_app : forall a b x y, EB a x -> EB b y -> EB (a ++ b) (x ++ y).
Proof. unfold EB. intros. rewrite !map_app. congruence. Qed.
Lemma EB_skipn : forall k a x, EB a x -> EB (skipn k a) (skipn k x).
Proof. unfold EB. intros k a x H. rewrite <- !skipn_map. congruence. Qed.
Lemma EB_firstn : forall k a x, EB a x -> EB (firstn k a) (firstn k x).
Proof. unfold EB. intros k a x H. rewrite <- !firstn_map. congruence. Qed.
Lemma EB_zeros : forall n, EB (repeat (XVal f0) n) (repeat false n).
Proof. unfold EB. induction n; cbn [repeat map]; auto. rewrite IHn. auto. Qed.
Lemma EB_inj : forall bits a b, EB bits a -> EB bits b -> a = b.
Proof. unfold EB. intros bits a b H1 H2. apply f_of_bool_map_inj. congruence. Qed.
Lemma EB_vals : forall bs, EB (map XVal (map f_of_bool bs)) bs.
Proof. unfold EB. intros. rewrite !map_map. reflexivity. Qed.
Lemma EB_ids : forall vs bs, map w vs = map f_of_bool bs -> EB (map XId vs) bs.
Proof. unfold EB. intros. rewrite map_map. auto. Qed.

Lemma ok_zip_bits : forall (C : Prop) f g,
  (forall x y a b, feval w x = f_of_bool a -> feval w y = f_of_bool b ->
     OK C (f x y) (fun z => feval w z = f_of_bool (g a b))) ->
  forall xs ys bx by_, EB xs bx -> EB ys by_ -> OK C (zipM f xs ys) (fun zs => EB zs (zip2 g bx by_)).
Proof.
  intros C f g Hf. induction xs as [|x xs IH]; intros ys bx by_ Hx Hy.
  - destruct bx; [|discriminate]. apply ok_ret. reflexivity.
  - apply EB_inv' in Hx as [b [s [-> [Hb Hs]]]]. destruct ys as [|y ys].
    + destruct by_; [|discriminate]. apply ok_ret. reflexivity.
    + apply EB_inv' in Hy as [b' [s' [-> [Hb' Hs']]]]. cbn [zipM zip2].
      eapply ok_bind; [apply Hf; eauto|]. intros z Hz. eapply ok_bind; [apply (IH _ _ _ Hs Hs')|].
      intros zs Hzs. apply ok_ret. apply EB_cons. auto.
Qed.
Fixpoint zip3 {A B} (f : A -> A -> A -> B) (a b c : list A) : list B :=
  match a, b, c with x :: r, y :: s, z :: t => f x y z :: zip3 f r s t | _, _, _ => [] end.
Lemma ok_zip3_bits : forall (C : Prop) f g,
  (forall x y z a b c, feval w x = f_of_bool a -> feval w y = f_of_bool b -> feval w z = f_of_bool c ->
     OK C (f x y z) (fun u => feval w u = f_of_bool (g a b c))) ->
  forall xs ys zs bx by_ bz, EB xs bx -> EB ys by_ -> EB zs bz -> OK C (zip3M f xs ys zs) (fun us => EB us (zip3 g bx by_ bz)).
Proof.
  intros C f g Hf. induction xs as [|x xs IH]; intros ys zs bx by_ bz Hx Hy Hz.
  - destruct bx; [|discriminate]. apply ok_ret. reflexivity.
  - apply EB_inv' in Hx as [b [s [-> [Hb Hs]]]]. destruct ys as [|y ys].
    + destruct by_; [|discriminate]. apply ok_ret. reflexivity.
    + apply EB_inv' in Hy as [b' [s' [-> [Hb' Hs']]]]. destruct zs as [|z zs].
      * destruct bz; [|discriminate]. apply ok_ret. reflexivity.
      * apply EB_inv' in Hz as [b2 [s2 [-> [Hb2 Hs2]]]]. cbn [zip3M zip3].
        eapply ok_bind; [apply Hf; eauto|]. intros u Hu. eapply ok_bind; [apply (IH _ _ _ _ _ Hs Hs' Hs2)|].
        intros us Hus. apply ok_ret. apply EB_cons. auto.
Qed.
Lemma ok_map_bits : forall (C : Prop) f g,
  (forall x a, feval w x = f_of_bool a -> OK C (f x) (fun z => feval w z = f_of_bool (g a))) ->
  forall xs bx, EB xs bx -> OK C (mapM f xs) (fun zs => EB zs (map g bx)).
Proof.
  intros C f g Hf. induction xs as [|x xs IH]; intros bx Hx.
  - destruct bx; [|discriminate]. apply ok_ret. reflexivity.
  - apply EB_inv' in Hx as [b [s [-> [Hb Hs]]]]. cbn [mapM map].
    eapply ok_bind; [apply Hf; eauto|]. intros z Hz. eapply ok_bind; [apply (IH _ Hs)|].
    intros zs Hzs. apply ok_ret. apply EB_cons. auto.
Qed.
End Rules.

(** ** Sums of weighted bits *)
Fixpoint wsum (i : nat) (l : list fexp) : F :=
  match l with [] => f0 | e :: r => fadd (fmul (of_Z (pow2 i)) (feval w e)) (wsum (S i) r) end.
Fixpoint csum (l : list (F * fexp)) : F :=
  match l with [] => f0 | (c, e) :: r => fadd (fmul c (feval w e)) (csum r) end.
Lemma csum_app : forall a b, csum (a ++ b) = fadd (csum a) (csum b).
Proof. induction a as [|[c e] a IH]; intros; cbn [app csum]; [ring|rewrite IH; ring]. Qed.
Lemma csum_weigh : forall l i, csum (weigh i l) = wsum i l.
Proof. induction l as [|e r IH]; intros i; cbn [weigh csum wsum]; auto. rewrite IH. auto. Qed.
Lemma ffb_aux_sum : forall fuel l, (length l <= fuel)%nat -> feval w (ffb_aux fuel l) = csum l.
Proof.
  induction fuel as [|k IH]; intros l Hl.
  - destruct l; [reflexivity|cbn in Hl; lia].
  - destruct l as [|[c e] [|[c' e'] r]]; cbn [ffb_aux csum feval]; [auto|ring|].
    set (l := (c, e) :: (c', e') :: r) in *.
    pose proof (Nat.div_mod (length l) 2 ltac:(lia)) as Hd. pose proof (Nat.mod_upper_bound (length l) 2 ltac:(lia)) as Hm.
    assert (H2 : (2 <= length l)%nat) by (unfold l; cbn; lia).
    set (h := Nat.div (length l) 2) in *. cbn [feval]. rewrite !IH.
    + rewrite <- csum_app, firstn_skipn. unfold l. reflexivity.
    + rewrite skipn_length. lia.
    + rewrite firstn_length. lia.
Qed.
Lemma weigh_length : forall l i, length (weigh i l) = length l.
Proof. induction l; intros; cbn; auto. Qed.
Lemma wsum_app : forall a b i, wsum i (a ++ b) = fadd (wsum i a) (wsum (i + length a) b).
Proof.
  induction a as [|e a IH]; intros b i; cbn [app wsum length].
  - rewrite Nat.add_0_r. ring.
  - rewrite IH. replace (i + S (length a))%nat with (S i + length a)%nat by lia. ring.
Qed.
Lemma wsum_rev_bits : forall bits bs, EB bits bs -> wsum 0 (rev bits) = of_Z (bv bs).
Proof.
  induction bits as [|x r IH]; intros bs H.
  - destruct bs; [|discriminate]. reflexivity.
  - apply EB_inv' in H as [b [s [-> [Hb Hs]]]]. cbn [rev]. rewrite wsum_app, (IH s Hs), rev_length. cbn [wsum].
    rewrite bv_cons, of_Z_add, Hb, f_of_bool_Z. rewrite (EB_length _ _ Hs). cbn [Nat.add].
    destruct b; [rewrite <- (Z.mul_1_r (pow2 (length s))) at 2|]; rewrite ?of_Z_mul; change (of_Z 1) with f1; change (of_Z 0) with f0; ring.
Qed.
Lemma ffb_bits : forall bits bs, EB bits bs -> feval w (ffb bits) = of_Z (bv bs).
Proof.
  intros bits bs H. unfold ffb. rewrite ffb_aux_sum by (rewrite weigh_length, rev_length; auto).
  rewrite csum_weigh. apply wsum_rev_bits; auto.
Qed.
Lemma red_field_bits : forall bits bs acc, EB bits bs -> feval w (red_field acc bits) = fadd (feval w acc) (of_Z (bv bs)).
Proof.
  induction bits as [|x r IH]; intros bs acc H.
  - destruct bs; [|discriminate]. cbn [red_field bv]. change (of_Z 0) with f0. ring.
  - apply EB_inv' in H as [b [s [-> [Hb Hs]]]]. cbn [red_field]. rewrite (IH s _ Hs). cbn [feval].
    rewrite bv_cons, of_Z_add, Hb, f_of_bool_Z, (EB_length _ _ Hs).
    destruct b; [rewrite <- (Z.mul_1_r (pow2 (length s))) at 2|]; rewrite ?of_Z_mul; change (of_Z 1) with f1; change (of_Z 0) with f0; ring.
Qed.

Lemma feval_fsum : forall es acc, feval w (fold_left XAdd es acc) = fadd (feval w acc) (fold_right (fun e a => fadd (feval w e) a) f0 es).
Proof.
  induction es as [|e r IH]; intros acc; cbn [fold_left fold_right]; [ring|]. rewrite IH. cbn [feval]. ring.
Qed.
Lemma fsum_bits : forall bits bs, EB bits bs -> feval w (fsum bits) = of_Z (Z.of_nat (length (filter (fun b => b) bs))).
Proof.
  intros bits bs H. unfold fsum. rewrite feval_fsum. cbn [feval].
  replace (fadd f0 (fold_right (fun e a => fadd (feval w e) a) f0 bits)) with (fold_right (fun e a => fadd (feval w e) a) f0 bits) by ring.
  revert bs H. induction bits as [|x r IH]; intros bs H.
  - destruct bs; [|discriminate]. reflexivity.
  - apply EB_inv' in H as [b [s [-> [Hb Hs]]]]. cbn [fold_right filter]. rewrite (IH s Hs), Hb.
    destruct b; cbn [length f_of_bool].
    + rewrite Nat2Z.inj_succ, <- Z.add_1_l, of_Z_add. reflexivity.
    + ring.
Qed.
End Base.
