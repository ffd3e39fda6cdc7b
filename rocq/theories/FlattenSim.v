(** Proofs about Flatten.v: a flattened program follows the typed program. *)
From Coq Require Import String Ascii.
From Coq Require Import ZArith NArith List Bool Lia Ring.
From Verif Require Import PField Interp Bits Zir CgProg UintOpt Str Abi Typed Flatten FlattenOps.
Import ListNotations.
Open Scope Z_scope.

Section Sim.
Context {PF : PrimeField}.
Add Ring FR : F_ring_th.

(** ** Operators *)
Lemma type_field : forall v, has_type v CField -> exists x, v = VField x.
Proof. intros [] H; try (cbn in H; contradiction). eauto. Qed.
Lemma type_bool : forall v, has_type v CBool -> exists x, v = VBool x.
Proof. intros [] H; try (cbn in H; contradiction). eauto. Qed.
Lemma type_uint : forall v w, has_type v (CUint w) -> exists n, v = VUint w n /\ 0 <= n < 2 ^ bits_of w.
Proof. intros [] w' H; try (cbn in H; contradiction). destruct H as [-> H]. eauto. Qed.
Lemma type_arr : forall v ty n, has_type v (CArray ty n) -> exists l, v = VArray l /\ length l = n /\ Forall (fun v => has_type v ty) l.
Proof. intros [] ty n' H; try (cbn in H; contradiction). apply type_array in H as [A B]. eauto. Qed.
Lemma type_tup : forall v ts, has_type v (CTuple ts) -> exists l, v = VTuple l /\ Forall2 has_type l ts.
Proof. intros [] ts H; try (cbn in H; contradiction). apply type_tuple in H. eauto. Qed.
Lemma type_str : forall v ms, has_type v (CStruct ms) -> exists l, v = VStruct l /\ Forall2 (fun kv kt => fst kv = fst kt /\ has_type (snd kv) (snd kt)) l ms.
Proof. intros [] ms H; try (cbn in H; contradiction). apply type_struct in H. eauto. Qed.
Lemma f2_nil : forall A B (R : A -> B -> Prop) l, Forall2 R l [] -> l = [].
Proof. intros A B R l H. inversion H. reflexivity. Qed.
Lemma f2_one : forall A B (R : A -> B -> Prop) l b, Forall2 R l [b] -> exists a, l = [a] /\ R a b.
Proof. intros A B R l b H. inversion H as [|? ? ? ? R1 H1]; subst. inversion H1; subst. eauto. Qed.
Lemma f2_two : forall A B (R : A -> B -> Prop) l b c, Forall2 R l [b; c] -> exists a d, l = [a; d] /\ R a b /\ R d c.
Proof. intros A B R l b c H. inversion H as [|? ? ? ? R1 H1]; subst. apply f2_one in H1 as [d [-> R2]]. eauto 6. Qed.
Lemma pop_one : forall z : zexp, popE [z] = Some z.
Proof. reflexivity. Qed.
Lemma range_pow : forall w, 0 < 2 ^ bits_of w.
Proof. intros []; reflexivity. Qed.
Lemma uop_range : forall o w a b z, sem_uop o (uwn w) a b = Some z -> 0 <= a < 2 ^ bits_of w -> 0 <= b < 2 ^ bits_of w -> 0 <= z < 2 ^ bits_of w.
Proof.
  intros o w a b z H Ha Hb. rewrite bits_uwn in *. destruct o; cbn [sem_uop] in H; unfold wrap in H.
  1-3: injection H as <-; apply Z.mod_pos_bound; rewrite <- bits_uwn; apply range_pow.
  - destruct (b =? 0) eqn:E; [discriminate H|]. apply Z.eqb_neq in E. injection H as <-. split; [apply Z.div_pos; lia|]. apply Z.le_lt_trans with a; [|lia]. apply Z.div_le_upper_bound; nia.
  - destruct (b =? 0) eqn:E; [discriminate H|]. apply Z.eqb_neq in E. injection H as <-. pose proof (Z.mod_pos_bound a b ltac:(lia)). lia.
  - injection H as <-. apply lxor_range; assumption.
  - injection H as <-. apply land_range; assumption.
  - injection H as <-. apply lor_range; assumption.
Qed.
Lemma member_ok : forall m t a b l ms, Forall2 (fun kv kt => fst kv = fst kt /\ has_type (snd kv) (snd kt)) l ms -> ms = a ++ (m, t) :: b -> ~ In m (map fst a) ->
  exists v p c, member m l = Some v /\ has_type v t /\ flat_map (fun kv => flat_val (snd kv)) l = p ++ flat_val v ++ c /\ moffset m ms = Some (length p, prim_count t).
Proof.
  intros m t. induction a as [|[k s] a IH]; intros b l ms H -> N; cbn [app] in H; inversion H as [|[k' v] ? l' ? [E T] R]; subst; cbn [fst snd] in *; subst.
  - exists v, [], (flat_map (fun kv => flat_val (snd kv)) l'). cbn [member moffset app flat_map snd length]. rewrite String.eqb_refl. auto.
  - cbn [map fst] in N. destruct (IH b l' _ R eq_refl) as [u [p [c [M [U [Q O]]]]]]; [intros X; apply N; right; exact X|]. exists u, (flat_val v ++ p), c. cbn [member moffset app flat_map snd].
    assert (D : String.eqb k m = false) by (apply String.eqb_neq; intros ->; apply N; left; reflexivity). rewrite D, M, O. split; [reflexivity|]. split; [exact U|]. split; [rewrite Q, app_assoc; reflexivity|]. rewrite app_length, (flat_val_length s v T). reflexivity.
Qed.
Lemma element_ok : forall k ts t l, Forall2 has_type l ts -> nth_error ts k = Some t ->
  exists v p c, nth_error l k = Some v /\ has_type v t /\ flat_map flat_val l = p ++ flat_val v ++ c /\ length p = sum_count (firstn k ts).
Proof.
  induction k as [|k IH]; intros ts t l H N; inversion H as [|v s l' ts' T R]; subst; try discriminate N; cbn [nth_error] in N.
  - injection N as ->. exists v, [], (flat_map flat_val l'). auto.
  - destruct (IH _ _ _ R N) as [u [p [c [M [U [Q O]]]]]]. exists u, (flat_val v ++ p), c. cbn [nth_error flat_map firstn sum_count fold_right]. split; [exact M|]. split; [exact U|]. split; [rewrite Q, app_assoc; reflexivity|]. rewrite app_length, (flat_val_length s v T), O. reflexivity.
Qed.
Lemma spread_ok : forall ty sp ts n vs, arr_ty ty sp ts n -> Forall2 has_type vs ts -> exists l, spread sp vs = Some l /\ length l = n /\ Forall (fun v => has_type v ty) l /\ flat_map flat_val l = flat_map flat_val vs.
Proof.
  intros ty sp ts n vs H. revert vs. induction H as [|sp ts n H IH|sp ts n m H IH]; intros vs F.
  - inversion F; subst. exists []. auto.
  - inversion F as [|v ? vs' ? T R]; subst. destruct (IH _ R) as [l [E [L [Q S]]]]. exists (v :: l). cbn [spread]. rewrite E. split; [reflexivity|]. split; [cbn; congruence|]. split; [constructor; assumption|]. cbn [flat_map]. rewrite S. reflexivity.
  - inversion F as [|v ? vs' ? T R]; subst. destruct (IH _ R) as [l [E [L [Q S]]]]. apply type_arr in T as [l' [-> [L' Q']]]. exists (l' ++ l). cbn [spread]. rewrite E. split; [reflexivity|]. split; [rewrite app_length; congruence|]. split; [apply Forall_app; auto|]. rewrite flat_map_app. cbn [flat_map flat_val]. rewrite S. reflexivity.
Qed.
Lemma struct_combine : forall ks ts vs, length ks = length ts -> Forall2 has_type vs ts -> Forall2 (fun kv kt => fst kv = fst kt /\ has_type (snd kv) (snd kt)) (combine ks vs) (combine ks ts) /\ flat_map (fun kv : string * value_ => flat_val (snd kv)) (combine ks vs) = flat_map flat_val vs.
Proof.
  intros ks ts vs L H. revert ks L. induction H as [|v t vs ts T R IH]; intros [|k ks] L; try discriminate L; [split; [constructor|reflexivity]|]. injection L as L. destruct (IH ks L) as [A B]. cbn [combine]. split; [constructor; [split; [reflexivity|exact T]|exact A]|]. cbn [flat_map snd]. rewrite B. reflexivity.
Qed.
Definition lits_ok (lits : list bool) (zss : list (list zexp)) : Prop := Forall2 (fun b zs => b = true -> exists c, zs = [ZFVal c]) lits zss.
(** the flattened operator computes the components of the operator's result *)
Theorem comb_ok : forall op ts t vs zss zs zr lits, op_ty op ts t -> Forall2 has_type vs ts -> Forall2 (rps zr) zss vs -> lits_ok lits zss -> comb op zss = Some zs ->
  match sem_op op lits vs with Ok v => has_type v t /\ rps zr zs v | Failed => False | Stuck => True end.
Proof.
  intros op ts t vs zss zs zr lits Y T R Li H. unfold rps in *. destruct Y.
  - apply f2_nil in T as ->. apply f2_nil in R as ->. injection H as <-. split; [exact I|]. constructor; [split; [reflexivity|exact I]|constructor].
  - apply f2_nil in T as ->. apply f2_nil in R as ->. injection H as <-. split; [exact I|]. constructor; [split; [reflexivity|exact I]|constructor].
  - apply f2_nil in T as ->. apply f2_nil in R as ->. injection H as <-. split; [split; [reflexivity|assumption]|]. constructor; [split; [reflexivity|exact I]|constructor].
  - (* field operators *)
    apply f2_two in T as [u1 [u2 [-> [T1 T2]]]]. apply type_field in T1 as [a ->]. apply type_field in T2 as [b ->]. apply f2_two in R as [s1 [s2 [-> [R1 R2]]]]. apply f2_one in R1 as [z1 [-> [S1 _]]]. apply f2_one in R2 as [z2 [-> [S2 _]]]. cbn in H. injection H as <-.
    cbn [sem_op]. destruct (sem_fop o a b) as [x|] eqn:E; [|exact I]. cbn [option_map of_opt]. split; [exact I|]. constructor; [|constructor]. split; [|exact I]. cbn [sem]. rewrite S1, S2, E. reflexivity.
  - apply f2_one in T as [u1 [-> T1]]. apply type_field in T1 as [a ->]. apply f2_one in R as [s1 [-> R1]]. apply f2_one in R1 as [z1 [-> [S1 _]]]. cbn in H. injection H as <-. split; [exact I|]. constructor; [|constructor]. split; [|exact I]. cbn [sem]. rewrite S1. reflexivity.
  - apply f2_one in T as [u1 [-> T1]]. apply type_field in T1 as [a ->]. apply f2_one in R as [s1 [-> R1]]. apply f2_one in R1 as [z1 [-> [S1 _]]]. cbn in H. injection H as <-. split; [exact I|]. constructor; [|constructor]. split; [|exact I]. cbn [sem]. rewrite S1. cbn [sem_fop]. apply f_equal, f_equal. ring.
  - apply f2_one in T as [u1 [-> T1]]. apply type_field in T1 as [a ->]. apply f2_one in R as [s1 [-> R1]]. cbn [flat_val] in R1. apply f2_one in R1 as [z1 [-> P1]]. cbn in H. injection H as <-. split; [exact I|]. constructor; [exact P1|constructor].
  - apply f2_one in T as [u1 [-> T1]]. apply type_uint in T1 as [a [-> Ra]]. apply f2_one in R as [s1 [-> R1]]. cbn [flat_val] in R1. apply f2_one in R1 as [z1 [-> P1]]. cbn in H. injection H as <-. split; [split; [reflexivity|exact Ra]|]. constructor; [exact P1|constructor].
  - (* field comparisons *)
    apply f2_two in T as [u1 [u2 [-> [T1 T2]]]]. apply type_field in T1 as [a ->]. apply type_field in T2 as [b ->]. apply f2_two in R as [s1 [s2 [-> [R1 R2]]]]. apply f2_one in R1 as [z1 [-> [S1 _]]]. apply f2_one in R2 as [z2 [-> [S2 _]]]. cbn in H. injection H as <-.
    apply f2_two in Li as [l1 [l2 [-> [L1 L2]]]]. cbn [sem_op]. destruct (existsb id [l1; l2] || ((fval a <? safe_max) && (fval b <? safe_max))) eqn:E; [|exact I].
    assert (D : fcmp_defined z1 z2 a b = true).
    { unfold fcmp_defined. destruct l1; [destruct (L1 eq_refl) as [c Ec]; injection Ec as ->; reflexivity|]. destruct l2; [destruct (L2 eq_refl) as [c Ec]; injection Ec as ->; apply orb_true_intro; left; apply orb_true_r|]. cbn [existsb id orb] in E. rewrite E. apply orb_true_r. }
    split; [exact I|]. constructor; [|constructor]. split; [|exact I]. cbn [sem zcmp]. rewrite S1, S2, D. reflexivity.
  - apply f2_two in T as [u1 [u2 [-> [T1 T2]]]]. apply type_field in T1 as [a ->]. apply type_field in T2 as [b ->]. apply f2_two in R as [s1 [s2 [-> [R1 R2]]]]. apply f2_one in R1 as [z1 [-> [S1 _]]]. apply f2_one in R2 as [z2 [-> [S2 _]]]. cbn in H. injection H as <-.
    apply f2_two in Li as [l1 [l2 [-> [L1 L2]]]]. cbn [sem_op]. destruct (existsb id [l1; l2] || ((fval a <? safe_max) && (fval b <? safe_max))) eqn:E; [|exact I].
    assert (D : fcmp_defined z1 z2 a b = true).
    { unfold fcmp_defined. destruct l1; [destruct (L1 eq_refl) as [c Ec]; injection Ec as ->; reflexivity|]. destruct l2; [destruct (L2 eq_refl) as [c Ec]; injection Ec as ->; apply orb_true_intro; left; apply orb_true_r|]. cbn [existsb id orb] in E. rewrite E. apply orb_true_r. }
    split; [exact I|]. constructor; [|constructor]. split; [|exact I]. cbn [sem zcmp]. rewrite S1, S2, D. reflexivity.
  - apply f2_two in T as [u1 [u2 [-> [T1 T2]]]]. apply type_uint in T1 as [a [-> _]]. apply type_uint in T2 as [b [-> _]]. apply f2_two in R as [s1 [s2 [-> [R1 R2]]]]. apply f2_one in R1 as [z1 [-> [S1 _]]]. apply f2_one in R2 as [z2 [-> [S2 _]]]. cbn in H. injection H as <-.
    split; [exact I|]. constructor; [|constructor]. split; [|exact I]. cbn [sem zcmp]. rewrite S1, S2. reflexivity.
  - apply f2_two in T as [u1 [u2 [-> [T1 T2]]]]. apply type_uint in T1 as [a [-> _]]. apply type_uint in T2 as [b [-> _]]. apply f2_two in R as [s1 [s2 [-> [R1 R2]]]]. apply f2_one in R1 as [z1 [-> [S1 _]]]. apply f2_one in R2 as [z2 [-> [S2 _]]]. cbn in H. injection H as <-.
    split; [exact I|]. constructor; [|constructor]. split; [|exact I]. cbn [sem zcmp]. rewrite S1, S2. reflexivity.
  - (* equality *)
    apply f2_two in T as [u1 [u2 [-> [T1 T2]]]]. apply f2_two in R as [s1 [s2 [-> [R1 R2]]]]. cbn [comb] in H. destruct (conj_tree (length s1) s1 s2) as [z|] eqn:E; [|discriminate H]. injection H as <-. cbn [sem_op]. split; [exact I|]. constructor; [|constructor].
    rewrite (value_eqb_leaves t _ _ T1 T2). eapply conj_tree_ok; [exact E|exact R1|exact R2|]. rewrite (flat_val_length t _ T1), (flat_val_length t _ T2). reflexivity.
  - apply f2_two in T as [u1 [u2 [-> [T1 T2]]]]. apply type_bool in T1 as [a ->]. apply type_bool in T2 as [b ->]. apply f2_two in R as [s1 [s2 [-> [R1 R2]]]]. apply f2_one in R1 as [z1 [-> [S1 _]]]. apply f2_one in R2 as [z2 [-> [S2 _]]]. cbn in H. injection H as <-.
    split; [exact I|]. constructor; [|constructor]. split; [|exact I]. cbn [sem]. rewrite S1, S2. reflexivity.
  - apply f2_one in T as [u1 [-> T1]]. apply type_bool in T1 as [a ->]. apply f2_one in R as [s1 [-> R1]]. apply f2_one in R1 as [z1 [-> [S1 _]]]. cbn in H. injection H as <-. split; [exact I|]. constructor; [|constructor]. split; [|exact I]. cbn [sem]. rewrite S1. reflexivity.
  - (* uints *)
    apply f2_two in T as [u1 [u2 [-> [T1 T2]]]]. apply type_uint in T1 as [a [-> Ra]]. apply type_uint in T2 as [b [-> Rb]]. apply f2_two in R as [s1 [s2 [-> [R1 R2]]]]. apply f2_one in R1 as [z1 [-> [S1 _]]]. apply f2_one in R2 as [z2 [-> [S2 _]]]. cbn in H. injection H as <-.
    cbn [sem_op]. destruct (sem_uop o (uwn w) a b) as [x|] eqn:E; [|exact I]. cbn [option_map of_opt]. split; [split; [reflexivity|eapply uop_range; eauto]|]. constructor; [|constructor]. split; [|exact I]. cbn [sem uw bare]. rewrite S1, S2, E. reflexivity.
  - apply f2_one in T as [u1 [-> T1]]. apply type_uint in T1 as [a [-> Ra]]. apply f2_one in R as [s1 [-> R1]]. apply f2_one in R1 as [z1 [-> [S1 _]]]. cbn in H. injection H as <-. split; [split; [reflexivity|lia]|]. constructor; [|constructor]. split; [|exact I]. cbn [sem uw bare]. rewrite S1, bits_uwn. reflexivity.
  - apply f2_one in T as [u1 [-> T1]]. apply type_uint in T1 as [a [-> Ra]]. apply f2_one in R as [s1 [-> R1]]. apply f2_one in R1 as [z1 [-> [S1 _]]]. cbn in H. injection H as <-. split; [split; [reflexivity|apply Z.mod_pos_bound, range_pow]|]. constructor; [|constructor]. split; [|exact I]. cbn [sem uw bare]. rewrite S1, bits_uwn. reflexivity.
  - apply f2_one in T as [u1 [-> T1]]. apply type_uint in T1 as [a [-> Ra]]. apply f2_one in R as [s1 [-> R1]]. apply f2_one in R1 as [z1 [-> [S1 _]]]. cbn in H. injection H as <-. split; [split; [reflexivity|]|].
    + pose proof (Z.pow_pos_nonneg 2 (Z.of_nat k) ltac:(lia) ltac:(lia)) as Q. split; [apply Z.div_pos; lia|]. apply Z.le_lt_trans with a; [|lia]. apply Z.div_le_upper_bound; nia.
    + constructor; [|constructor]. split; [|exact I]. cbn [sem uw bare]. rewrite S1. reflexivity.
  - apply f2_one in T as [u1 [-> T1]]. apply type_uint in T1 as [a [-> Ra]]. apply f2_one in R as [s1 [-> R1]]. apply f2_one in R1 as [z1 [-> [S1 _]]]. cbn in H. injection H as <-. split; [split; [reflexivity|apply Z.mod_pos_bound, range_pow]|]. constructor; [|constructor]. split; [|exact I]. cbn [sem uw bare]. rewrite S1. cbn [sem_uop]. unfold wrap. rewrite bits_uwn. replace (0 - a) with (- a) by ring. reflexivity.
  - (* select *)
    apply f2_two in T as [u1 [u2 [-> [T1 T2]]]]. apply type_arr in T1 as [l [-> [Ll Hl]]]. apply type_uint in T2 as [k [-> Rk]]. apply f2_two in R as [s1 [s2 [-> [R1 R2]]]]. cbn [flat_val] in R1, R2. apply f2_one in R2 as [zi [-> [S2 _]]]. cbn [comb] in H. rewrite pop_one in H.
    cbn [sem_op]. destruct (0 <=? k) eqn:E; [|exact I]. apply Z.leb_le in E. destruct (nth_error l (Z.to_nat k)) as [v|] eqn:N; [|exact I]. cbn [of_opt]. split; [rewrite Forall_forall in Hl; apply Hl; eapply nth_error_In; eauto|].
    eapply zsel_ok; [exact Hl|exact R1| |exact N|exact H]. rewrite Z2Nat.id by exact E. exact S2.
  - (* member *)
    apply f2_one in T as [u1 [-> T1]]. apply type_str in T1 as [l [-> Hl]]. apply f2_one in R as [s1 [-> R1]]. cbn [flat_val] in R1. match goal with X : exists a b, _ |- _ => destruct X as [a [b [Em N]]] end.
    destruct (member_ok m t a b l ms Hl Em N) as [v [p [c [M [U [Q O]]]]]]. cbn [sem_op]. rewrite M. cbn [of_opt]. split; [exact U|]. cbn [comb] in H. rewrite O in H. rewrite Q in R1. eapply slice_rps; [exact R1|exact H|reflexivity|]. rewrite (flat_val_length t v U). reflexivity.
  - (* element *)
    apply f2_one in T as [u1 [-> T1]]. apply type_tup in T1 as [l [-> Hl]]. apply f2_one in R as [s1 [-> R1]]. cbn [flat_val] in R1. match goal with X : nth_error _ _ = Some _ |- _ => rename X into N end.
    destruct (element_ok k ts t l Hl N) as [v [p [c [M [U [Q O]]]]]]. cbn [sem_op]. rewrite M. cbn [of_opt]. split; [exact U|]. cbn [comb] in H. rewrite N in H. cbv zeta in H. rewrite Q in R1. eapply slice_rps; [exact R1|exact H|exact O|]. rewrite (flat_val_length t v U). reflexivity.
  - (* array *)
    match goal with X : arr_ty _ _ _ _ |- _ => destruct (spread_ok _ _ _ _ _ X T) as [l [E [L [Hl Q]]]] end. cbn [sem_op]. rewrite E. cbn [option_map of_opt]. split; [apply type_array; auto|]. cbn [comb] in H. destruct (length (concat zss) =? n * prim_count ty)%nat; [|discriminate H]. injection H as <-. cbn [flat_val]. rewrite Q. apply f2_concat. exact R.
  - (* slice *)
    apply f2_one in T as [u1 [-> T1]]. apply type_arr in T1 as [l [-> [Ll Hl]]]. apply f2_one in R as [s1 [-> R1]]. cbn [flat_val] in R1. cbn [comb] in H. cbn [sem_op].
    destruct ((f <=? t)%nat && (t <=? length l)%nat) eqn:E; [|exact I]. apply andb_prop in E as [E1 E2]. apply Nat.leb_le in E1, E2.
    split; [apply type_array; split; [rewrite firstn_length, skipn_length; lia|]; rewrite Forall_forall in *; intros x X; apply Hl; rewrite <- (firstn_skipn f l); apply in_or_app; right; rewrite <- (firstn_skipn (t - f) (skipn f l)); apply in_or_app; left; exact X|].
    cbn [flat_val]. rewrite <- (firstn_skipn f l) in R1. rewrite <- (firstn_skipn (t - f) (skipn f l)) in R1. rewrite !flat_map_app in R1. eapply slice_rps; [exact R1|exact H| |].
    + rewrite (flat_vals_length _ ty); [rewrite firstn_length; f_equal; lia|]. rewrite Forall_forall in *. intros x X. apply Hl. rewrite <- (firstn_skipn f l). apply in_or_app. auto.
    + rewrite (flat_vals_length _ ty); [rewrite firstn_length, skipn_length; nia|]. rewrite Forall_forall in *. intros x X. apply Hl. rewrite <- (firstn_skipn f l). apply in_or_app. right. rewrite <- (firstn_skipn (t - f) (skipn f l)). apply in_or_app. left. exact X.
  - (* repeat *)
    apply f2_one in T as [u1 [-> T1]]. apply f2_one in R as [s1 [-> R1]]. cbn [comb] in H. injection H as <-. cbn [sem_op]. split; [apply type_array; split; [apply repeat_length|]; rewrite Forall_forall; intros x X; apply repeat_spec in X as ->; exact T1|].
    cbn [flat_val]. induction n as [|n IH]; [constructor|]. cbn [repeat concat flat_map]. apply Forall2_app; [exact R1|exact IH].
  - cbn [comb] in H. injection H as <-. cbn [sem_op]. split; [apply type_tuple; exact T|]. cbn [flat_val]. apply f2_concat. exact R.
  - cbn [comb] in H. injection H as <-. cbn [sem_op]. destruct (length ks =? length vs)%nat; [|exact I]. match goal with X : length ks = _ |- _ => destruct (struct_combine _ _ _ X T) as [A B] end. split; [apply type_struct; exact A|]. cbn [flat_val]. rewrite B. apply f2_concat. exact R.
Qed.
End Sim.
