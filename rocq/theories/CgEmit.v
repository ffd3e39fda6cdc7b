(** Which statements the code generator emits for expressions and assertions: no logs, built-in solvers only; and
    which of its results carry bits. *)
From Coq Require Import ZArith NArith List Bool Lia.
From Verif Require Import PField SMap IR IRSpec Interp Bits Flat FlatProofs Zir Codegen CgBase CgGadgets CgExpr.
Import ListNotations.
Open Scope Z_scope.

Section Emit.
Context {PF : PrimeField}.

Definition builtin (sv : solver) : Prop := match sv with SExt _ _ _ => False | _ => True end.
Definition quiet (s : fstmt) : Prop := match s with XLog _ _ => False | XDir _ sv _ => builtin sv | _ => True end.
Definition emq {A} (m : M A) : Prop := forall s a s' em, m s = Some (a, s', em) -> Forall quiet em.

Lemma emq_ret : forall A (a : A), emq (ret a).
Proof. intros A a s x s' em E. injection E as <- <- <-. constructor. Qed.
Lemma emq_fail : forall A, emq (@fail PF A).
Proof. intros A s x s' em E. discriminate. Qed.
Lemma emq_bind : forall A B (m : M A) (k : A -> M B), emq m -> (forall a, emq (k a)) -> emq (bind m k).
Proof.
  intros A B m k Hm Hk s b s' em E. unfold bind in E. destruct (m s) as [[[a s1] o1]|] eqn:E1; [|discriminate].
  destruct (k a s1) as [[[b' s2] o2]|] eqn:E2; [|discriminate]. injection E as <- <- <-. apply Forall_app. split; [eapply Hm|eapply Hk]; eauto.
Qed.
Lemma emq_emits : forall l, Forall quiet l -> emq (emits l).
Proof. intros l H s x s' em E. injection E as <- <- <-. auto. Qed.
Lemma emq_emit : forall x, quiet x -> emq (emit x).
Proof. intros x H. apply emq_emits. auto. Qed.
Lemma emq_assert : forall b, emq (assertM b).
Proof. intros [|]; [apply emq_ret|apply emq_fail]. Qed.
Lemma emq_fresh : emq fresh.
Proof. intros s x s' em E. injection E as <- <- <-. constructor. Qed.
Lemma emq_set_lay : forall x v, emq (set_lay x v).
Proof. intros x v s y s' em E. injection E as <- <- <-. constructor. Qed.
Lemma emq_get_lay : forall x, emq (get_lay x).
Proof. intros x s y s' em E. unfold get_lay in E. destruct (lookup x (lay s)); [|discriminate]. injection E as <- <- <-. constructor. Qed.
Lemma emq_cget : forall k, emq (cget k).
Proof. intros k s y s' em E. injection E as <- <- <-. constructor. Qed.
Lemma emq_cput : forall k b e, emq (cput k b e).
Proof. intros k b e s y s' em E. injection E as <- <- <-. constructor. Qed.
Lemma emq_mapM : forall A B (f : A -> M B) l, Forall (fun x => emq (f x)) l -> emq (mapM f l).
Proof.
  intros A B f l H. induction H; cbn [mapM]; [apply emq_ret|]. apply emq_bind; auto. intros y. apply emq_bind; auto. intros ys. apply emq_ret.
Qed.
Lemma emq_mapM' : forall A B (f : A -> M B) l, (forall x, emq (f x)) -> emq (mapM f l).
Proof. intros. apply emq_mapM. apply Forall_forall. auto. Qed.
Lemma emq_zipM : forall A B C (f : A -> B -> M C) l r, (forall x y, emq (f x y)) -> emq (zipM f l r).
Proof.
  intros A B C f l. induction l as [|x l IH]; intros [|y r] H; try apply emq_ret. cbn [zipM].
  apply emq_bind; auto. intros z. apply emq_bind; auto. intros zs. apply emq_ret.
Qed.
Lemma emq_zip3M : forall f a b c, (forall x y z, emq (f x y z)) -> emq (zip3M f a b c).
Proof.
  intros f a. induction a as [|x a IH]; intros [|y b] [|z c] H; try apply emq_ret. cbn [zip3M].
  apply emq_bind; auto. intros u. apply emq_bind; auto. intros us. apply emq_ret.
Qed.
Lemma emq_freshn : forall n, emq (freshn n).
Proof. induction n; cbn [freshn]; [apply emq_ret|]. apply emq_bind; [apply emq_fresh|]. intros. apply emq_bind; auto. intros. apply emq_ret. Qed.
Lemma quiet_bitness : forall l, Forall quiet (map bitness l).
Proof. induction l; constructor; cbn; auto. Qed.

Create HintDb emq.
#[local] Hint Resolve emq_ret emq_fail emq_emits emq_emit emq_assert emq_fresh emq_set_lay emq_get_lay emq_cget emq_cput emq_mapM'
  emq_zipM emq_zip3M emq_freshn quiet_bitness : emq.
Ltac emqt := repeat first [solve [auto with emq]|apply emq_bind; [|intros]|progress cbn [quiet builtin]; solve [auto]
  |match goal with |- emq (match ?x with _ => _ end) => destruct x end
  |match goal with |- Forall quiet (match ?x with _ => _ end) => destruct x end
  |apply emq_emits|apply emq_emit|apply emq_mapM'; intros|apply emq_zipM; intros|constructor].

Lemma emq_newdef : forall e, emq (newdef e). Proof. intros. unfold newdef. emqt. Qed.
Lemma emq_define : forall e, emq (define e). Proof. intros. unfold define. emqt. Qed.
Lemma emq_linearise : forall e, emq (linearise e).
Proof. intros. unfold linearise. destruct (is_linear e); [apply emq_ret|]. apply emq_bind; [apply emq_newdef|]. intros; apply emq_ret. Qed.
#[local] Hint Resolve emq_newdef emq_define emq_linearise : emq.
Lemma emq_get_bits : forall e a b err, emq (get_bits e a b err).
Proof. intros. unfold get_bits. emqt. Qed.
#[local] Hint Resolve emq_get_bits : emq.
Lemma emq_clc_loop : forall a b prs, emq (clc_loop a b prs).
Proof.
  induction a as [|x a IH]; intros [|[|] b] [|[r u] prs]; cbn [clc_loop]; try apply emq_ret.
  - apply emq_bind; [emqt|intros]. apply emq_bind; [emqt|intros]. auto.
  - apply emq_bind; [emqt|intros]. apply emq_bind; [emqt|intros]. apply emq_bind; [emqt|intros]. apply emq_bind; [apply IH|intros]. emqt.
Qed.
#[local] Hint Resolve emq_clc_loop : emq.
Lemma emq_clc : forall a b, emq (constant_le_check a b).
Proof.
  intros. unfold constant_le_check. apply emq_bind; [emqt|intros]. destruct (forallb _ b).
  - apply emq_bind; [emqt|intros]. apply emq_bind; [|intros; emqt]. apply emq_emits. apply Forall_forall. intros x Hx.
    apply in_map_iff in Hx as [v [<- _]]. cbn. auto.
  - apply emq_bind; [|intros]. { apply emq_mapM'. intros. emqt. } emqt.
Qed.
#[local] Hint Resolve emq_clc : emq.
Lemma emq_eq_check : forall a b, emq (eq_check a b). Proof. intros. unfold eq_check. emqt. Qed.
#[local] Hint Resolve emq_eq_check : emq.
Lemma emq_enforce_le_bits : forall a b c, emq (enforce_le_bits a b c).
Proof. intros. unfold enforce_le_bits. emqt.
Qed.
#[local] Hint Resolve emq_enforce_le_bits : emq.
Lemma emq_enforce_constant_le : forall a b c, emq (enforce_constant_le a b c). Proof. intros. unfold enforce_constant_le. emqt. Qed.
#[local] Hint Resolve emq_enforce_constant_le : emq.
Lemma emq_enforce_constant_lt : forall a b c, emq (enforce_constant_lt a b c). Proof. intros. unfold enforce_constant_lt. emqt. Qed.
#[local] Hint Resolve emq_enforce_constant_lt : emq.
Lemma emq_cfl : forall a b, emq (constant_field_le a b). Proof. intros. unfold constant_field_le. emqt. Qed.
#[local] Hint Resolve emq_cfl : emq.
Lemma emq_constant_lt : forall a b, emq (constant_lt a b). Proof. intros. unfold constant_lt. emqt. Qed.
#[local] Hint Resolve emq_constant_lt : emq.
Lemma emq_lt_check : forall a b n, emq (lt_check a b n). Proof. intros. unfold lt_check. emqt. Qed.
#[local] Hint Resolve emq_lt_check : emq.
Lemma emq_le_check : forall a b n, emq (le_check a b n). Proof. intros. unfold le_check. emqt. Qed.
#[local] Hint Resolve emq_le_check : emq.
Lemma emq_field_lt : forall a b, emq (field_lt a b). Proof. intros. unfold field_lt. emqt. Qed.
#[local] Hint Resolve emq_field_lt : emq.
Lemma emq_cond_flat : forall a b c, emq (cond_flat a b c). Proof. intros. unfold cond_flat. emqt. Qed.
Lemma emq_or_flat : forall a b, emq (or_flat a b). Proof. intros. unfold or_flat. emqt. Qed.
#[local] Hint Resolve emq_cond_flat emq_or_flat : emq.
Lemma emq_xor_bit : forall a b, emq (xor_bit a b). Proof. intros. unfold xor_bit. emqt. Qed.
Lemma emq_and_bit : forall a b, emq (and_bit a b). Proof. intros. unfold and_bit. emqt. Qed.
Lemma emq_or_bit : forall a b, emq (or_bit a b). Proof. intros. unfold or_bit. emqt. Qed.
Lemma emq_not_bit : forall a, emq (not_bit a). Proof. intros. unfold not_bit. emqt. Qed.
Lemma emq_ch_bit : forall a b c, emq (ch_bit a b c). Proof. intros. unfold ch_bit. emqt. Qed.
Lemma emq_maj_bit : forall a b c, emq (maj_bit a b c). Proof. intros. unfold maj_bit. emqt. Qed.
Lemma emq_euclid : forall a b c, emq (euclid a b c). Proof. intros. unfold euclid. emqt. Qed.
Lemma emq_finish : forall a b, emq (finish_uint a b). Proof. intros. unfold finish_uint. emqt. Qed.
#[local] Hint Resolve emq_xor_bit emq_and_bit emq_or_bit emq_not_bit emq_ch_bit emq_maj_bit emq_euclid emq_finish : emq.
Lemma emq_pow_squares : forall r p, emq (pow_squares p r).
Proof. induction r; intros; cbn [pow_squares]; [apply emq_ret|]. apply emq_bind; [emqt|intros]. apply emq_bind; [apply IHr|intros]. emqt. Qed.
#[local] Hint Resolve emq_pow_squares : emq.
Lemma emq_pow_powers : forall b r, emq (pow_powers b r). Proof. intros. unfold pow_powers. emqt. Qed.
Lemma emq_pow_fold : forall b a ps, emq (pow_fold a b ps).
Proof. induction b as [|[|] b IH]; intros a [|p ps]; cbn [pow_fold]; try apply emq_ret; auto. apply emq_bind; [emqt|intros]. auto. Qed.
Lemma emq_select_fold : forall l a b, emq (select_fold a b l).
Proof. induction l as [|[c e] l IH]; intros; cbn [select_fold]; [apply emq_ret|]. apply emq_bind; [emqt|intros]. auto. Qed.
Lemma emq_bitsM : forall u, emq (bitsM u). Proof. intros. unfold bitsM. emqt. Qed.
#[local] Hint Resolve emq_pow_powers emq_pow_fold emq_select_fold emq_bitsM : emq.
Lemma emq_isU : forall k m, emq m -> emq (isU k m). Proof. intros. unfold isU. destruct k; auto. apply emq_bind; auto. intros. emqt. Qed.

Lemma emq_flat : forall e, emq (flat e).
Proof.
  assert (A : forall n e, (zsize e < n)%nat -> emq (flat e)).
  { induction n as [|n IH]; intros e Hs; [lia|]. destruct e; cbn [zsize] in Hs.
    1-3: cbn [flat]; solve [emqt].
    - cbn [flat]; destruct k; solve [emqt].
    - assert (H1 : emq (flat e1)) by (apply IH; lia). assert (H2 : emq (flat e2)) by (apply IH; lia). cbn [flat]. emqt.
    - assert (H1 : emq (flat e)) by (apply IH; lia). cbn [flat]. emqt.
    - assert (H1 : emq (flat e1)) by (apply IH; lia). assert (H2 : emq (flat e2)) by (apply IH; lia). destruct op; cbn [flat]; emqt.
    - assert (H1 : emq (flat e1)) by (apply IH; lia). assert (H2 : emq (flat e2)) by (apply IH; lia). cbn [flat]. emqt.
    - assert (H1 : emq (flat e)) by (apply IH; lia). cbn [flat]. emqt.
    - assert (H1 : emq (flat e1)) by (apply IH; lia). assert (H2 : emq (flat e2)) by (apply IH; lia). destruct op; try (cbn [flat]; solve [emqt]).
      rewrite flat_xor. destruct (xor_view e1 e2) as [[ch [[ea eb] ec]]|] eqn:Ev; [|emqt].
      pose proof (xor_view_size _ _ _ _ _ _ Ev). assert (emq (flat ea)) by (apply IH; lia). assert (emq (flat eb)) by (apply IH; lia).
      assert (emq (flat ec)) by (apply IH; lia). destruct ch; emqt.
    - assert (H1 : emq (flat e)) by (apply IH; lia). cbn [flat]. emqt.
    - assert (H1 : emq (flat e)) by (apply IH; lia). cbn [flat]. emqt.
    - assert (H1 : emq (flat e)) by (apply IH; lia). cbn [flat]. emqt.
    - assert (H1 : emq (flat e1)) by (apply IH; lia). assert (H2 : emq (flat e2)) by (apply IH; lia). assert (H3 : emq (flat e3)) by (apply IH; lia).
      cbn [flat]. apply emq_isU. emqt.
    - assert (H1 : emq (flat e)) by (apply IH; lia). cbn [flat]. apply emq_isU.
      apply emq_bind; [|intros; emqt].
      assert (Hs' : ((fix go (l : list zexp) : nat := match l with [] => 0 | e :: r => zsize e + go r end) es < n)%nat) by lia.
      clear Hs. match goal with |- emq (?f 0%nat ?l) => enough (Hgo : forall i, emq (f i l)) by apply Hgo end.
      induction es as [|e0 r IHr]; intros i; [apply emq_ret|].
      assert (H2 : emq (flat e0)) by (apply IH; lia).
      apply emq_bind; [emqt|intros]. apply emq_bind; [emqt|intros]. apply emq_bind; [emqt|intros]. apply emq_bind; [emqt|intros].
      apply emq_bind; [emqt|intros]. apply emq_bind; [apply IHr; lia|intros]. emqt. }
  intros e. apply (A (S (zsize e))). lia.
Qed.
#[local] Hint Resolve emq_flat : emq.
Lemma emq_naive : forall e err, emq (naive_assert e err). Proof. intros. unfold naive_assert. apply emq_bind; [auto with emq|intros u]. destruct (is_linear (getf u)); emqt. Qed.
Lemma emq_not_zero : forall e, emq (not_zero_assert e). Proof. intros. unfold not_zero_assert. emqt. Qed.
Lemma emq_eq_assert : forall a b c, emq (eq_assert a b c). Proof. intros. unfold eq_assert. emqt. Qed.
Lemma emq_enforce_one : forall a b, emq (enforce_one a b). Proof. intros. unfold enforce_one. emqt. Qed.
#[local] Hint Resolve emq_naive emq_not_zero emq_eq_assert emq_enforce_one : emq.
Lemma emq_fca : forall le a b c, emq (field_cmp_assert le a b c). Proof. intros [|] a b c; unfold field_cmp_assert; emqt. Qed.
Lemma emq_uca : forall le n a b c, emq (uint_cmp_assert le n a b c). Proof. intros [|] n a b c; unfold uint_cmp_assert; emqt. Qed.
#[local] Hint Resolve emq_fca emq_uca : emq.
Lemma emq_assertion : forall e err, emq (flat_assert e err).
Proof.
  induction e; intros err; try (apply emq_naive).
  - destruct op; cbn [flat_assert]; emqt.
  - destruct op; cbn [flat_assert]; solve [emqt].
  - destruct e; try (apply emq_naive). destruct op; try (apply emq_naive); cbn [flat_assert]; emqt.
Qed.
#[local] Hint Resolve emq_assertion : emq.
Lemma emq_unpack : forall n x, emq (unpack n x).
Proof.
  intros. unfold unpack. apply emq_bind; [emqt|intros]. apply emq_bind; [emqt|intros]. apply emq_bind; [emqt|intros].
  apply emq_bind; [|intros; emqt]. apply emq_emits. apply Forall_forall. intros y Hy. apply in_map_iff in Hy as [v [<- _]]. cbn. auto.
Qed.
#[local] Hint Resolve emq_unpack : emq.
Lemma emq_bool_const : forall e, emq (bool_const e). Proof. intros. unfold bool_const. emqt. Qed.
#[local] Hint Resolve emq_bool_const : emq.
Lemma emq_embed : forall em ps, emq (embed_call em ps). Proof. intros. unfold embed_call. emqt. Qed.
Lemma emq_bind_name : forall x e, emq (bind_name x e). Proof. intros. unfold bind_name. emqt. Qed.
Lemma emq_use_param : forall p, emq (use_param p). Proof. intros. unfold use_param. emqt. Qed.

(** Only uint results carry bits. *)
Definition posts {A} (m : M A) (P : A -> Prop) : Prop := forall s a s' em, m s = Some (a, s', em) -> P a.
Lemma posts_bind : forall A B (m : M A) (k : A -> M B) P, (forall a, posts (k a) P) -> posts (bind m k) P.
Proof.
  intros A B m k P Hk s b s' em E. unfold bind in E. destruct (m s) as [[[a s1] o1]|] eqn:E1; [|discriminate].
  destruct (k a s1) as [[[b' s2] o2]|] eqn:E2; [|discriminate]. injection E as <- <- <-. eapply Hk; eauto.
Qed.
Lemma posts_ret : forall A (a : A) (P : A -> Prop), P a -> posts (ret a) P.
Proof. intros A a P H s x s' em E. injection E as <- <- <-. auto. Qed.
Lemma flat_nobits : forall e, (match zkind e with KU _ => False | _ => True end) -> posts (flat e) (fun u => getbits u = None).
Proof.
  intros e K. destruct e; cbn [zkind] in K; try contradiction; cbn [flat].
  - apply posts_ret; reflexivity.
  - apply posts_ret; reflexivity.
  - destruct k; try contradiction; apply posts_bind; intros; apply posts_ret; reflexivity.
  - apply posts_bind; intros. apply posts_bind; intros.
    destruct op; repeat (apply posts_bind; intros); apply posts_ret; reflexivity.
  - repeat (apply posts_bind; intros); apply posts_ret; reflexivity.
  - destruct op; repeat (apply posts_bind; intros); apply posts_ret; reflexivity.
  - apply posts_bind; intros. apply posts_bind; intros.
    destruct op; repeat (apply posts_bind; intros); apply posts_ret; reflexivity.
  - repeat (apply posts_bind; intros); apply posts_ret; reflexivity.
  - destruct k; try contradiction; cbn [isU]; unfold cond_flat; repeat (apply posts_bind; intros); apply posts_ret; reflexivity.
  - destruct k; try contradiction; cbn [isU]; repeat (apply posts_bind; intros); apply posts_ret; reflexivity.
Qed.
End Emit.
