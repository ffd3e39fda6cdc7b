(** Proofs about Writes.v: the conditions defined by ConditionRedefiner. *)
From Coq Require Import String Ascii.
From Coq Require Import ZArith NArith List Bool Lia Permutation.
From Verif Require Import PField Interp Bits Zir CgProg UintOpt Str Abi Typed Flatten FlattenOps FlattenSim FlattenRun Writes.
Import ListNotations.
Open Scope Z_scope.

Section Redefine.
Context {PF : PrimeField}.

(** ** Counting *)
Definition cnt (y : Z) (l : list Z) : nat := count_occ Z.eq_dec l y.
Lemma cnt_app : forall y a b, cnt y (a ++ b) = (cnt y a + cnt y b)%nat.
Proof. intros. apply count_occ_app. Qed.
Lemma cnt_nil : forall y, cnt y [] = O.
Proof. reflexivity. Qed.
Definition cids (n n' : nat) : list Z := map cid (seq n (n' - n)).
Lemma cids_split : forall n m k, (n <= m <= k)%nat -> cids n k = cids n m ++ cids m k.
Proof. intros n m k H. unfold cids. rewrite <- map_app. f_equal. replace (k - n)%nat with ((m - n) + (k - m))%nat by lia. rewrite seq_app. do 2 f_equal. lia. Qed.
Lemma cids_same : forall n, cids n n = [].
Proof. intros n. unfold cids. rewrite Nat.sub_diag. reflexivity. Qed.
Lemma cids_one : forall n, cids n (S n) = [cid n].
Proof. intros n. unfold cids. replace (S n - n)%nat with 1%nat by lia. reflexivity. Qed.
Lemma cid_neg : forall n, cid n < 0.
Proof. intros n. unfold cid. lia. Qed.
Lemma cid_inj : forall n m, cid n = cid m -> n = m.
Proof. intros n m. unfold cid. lia. Qed.
Lemma cids_in : forall y n m, In y (cids n m) -> exists k, (n <= k < m)%nat /\ y = cid k.
Proof. intros y n m H. apply in_map_iff in H as [k [<- H]]. apply in_seq in H. exists k. split; [lia|reflexivity]. Qed.
Lemma cids_nodup : forall n m, NoDup (cids n m).
Proof. intros n m. unfold cids. apply FinFun.Injective_map_NoDup; [exact cid_inj|apply seq_NoDup]. Qed.
Lemma zent_dec : forall x y : Z * list F, {x = y} + {x <> y}.
Proof.
  intros [a l] [b m]. destruct (Z.eq_dec a b) as [->|N]; [|right; congruence].
  assert (D : forall x y : F, {x = y} + {x <> y}). { intros x y. destruct (Feqb x y) eqn:E; [left; apply Feqb_eq; exact E|right; intros ->; rewrite Feqb_refl in E; discriminate E]. }
  destruct (list_eq_dec D l m) as [->|N]; [left; reflexivity|right; congruence].
Qed.
Definition ecnt (y : Z * list F) (l : list entry) : nat := count_occ zent_dec (map zentry l) y.
Lemma ecnt_app : forall y a b, ecnt y (a ++ b) = (ecnt y a + ecnt y b)%nat.
Proof. intros. unfold ecnt. rewrite map_app. apply count_occ_app. Qed.
Lemma ecnt_nil : forall y, ecnt y [] = O.
Proof. reflexivity. Qed.
Lemma ecnt_perm : forall a b, (forall y, ecnt y a = ecnt y b) -> Permutation (map zentry a) (map zentry b).
Proof. intros a b H. apply (Permutation_count_occ zent_dec). exact H. Qed.

(** ** Contexts and environments that agree on the identifiers of the program *)
Definition nnS (S : tctx) : Prop := forall y, S y <> None -> 0 <= y.
Definition nnl (l : list Z) : Prop := forall y, In y l -> 0 <= y.
Definition xtn (S S1 : tctx) : Prop := forall y t, S y = Some t -> S1 y = Some t.
Definition cfree (n : nat) (S : tctx) : Prop := forall k, (n <= k)%nat -> S (cid k) = None.
Definition same (a b : tenv) : Prop := forall y, 0 <= y -> a y = b y.
Lemma nnl_app : forall a b, nnl (a ++ b) -> nnl a /\ nnl b.
Proof. intros a b H. split; intros y I; apply H, in_or_app; auto. Qed.
Lemma xtn_refl : forall S, xtn S S.
Proof. intros S y t H. exact H. Qed.
Lemma xtn_trans : forall A B C, xtn A B -> xtn B C -> xtn A C.
Proof. intros A B C H K y t E. apply K, H, E. Qed.
Lemma xtn_upd : forall A B x t, xtn A B -> xtn (cupd A x t) (cupd B x t).
Proof. intros A B x t H y u E. unfold cupd in *. destruct (y =? x); [exact E|apply H; exact E]. Qed.
Lemma xtn_new : forall A n t, A (cid n) = None -> xtn A (cupd A (cid n) t).
Proof. intros A n t H y u E. unfold cupd. destruct (Z.eqb_spec y (cid n)) as [->|_]; [congruence|exact E]. Qed.
Lemma cfree_le : forall n m S, cfree n S -> (n <= m)%nat -> cfree m S.
Proof. intros n m S H L k K. apply H. lia. Qed.
Lemma cfree_new : forall n S t, cfree n S -> cfree (Datatypes.S n) (cupd S (cid n) t).
Proof. intros n S t H k K. unfold cupd. destruct (Z.eqb_spec (cid k) (cid n)) as [E|_]; [apply cid_inj in E; lia|apply H; lia]. Qed.
Lemma cfree_upd : forall n S x t, cfree n S -> 0 <= x -> cfree n (cupd S x t).
Proof. intros n S x t H X k K. unfold cupd. destruct (Z.eqb_spec (cid k) x) as [E|_]; [pose proof (cid_neg k); lia|apply H; exact K]. Qed.
Lemma same_refl : forall a, same a a.
Proof. intros a y _. reflexivity. Qed.
Lemma same_trans : forall a b c, same a b -> same b c -> same a c.
Proof. intros a b c H K y N. rewrite (H y N). apply K. exact N. Qed.
Lemma same_sym : forall a b, same a b -> same b a.
Proof. intros a b H y N. symmetry. apply H. exact N. Qed.
Lemma same_upd : forall a b x v, same a b -> same (tupd a x v) (tupd b x v).
Proof. intros a b x v H y N. unfold tupd. destruct (y =? x); [reflexivity|apply H; exact N]. Qed.
Lemma same_new : forall a b n v, same a b -> same (tupd a (cid n) v) b.
Proof. intros a b n v H y N. unfold tupd. destruct (Z.eqb_spec y (cid n)) as [->|_]; [pose proof (cid_neg n); lia|apply H; exact N]. Qed.

Lemma weaken : (forall S e t, tty S e t -> forall S1, xtn S S1 -> tty S1 e t) /\ (forall S es ts, ttys S es ts -> forall S1, xtn S S1 -> ttys S1 es ts) /\
  (forall S s S', tsty S s S' -> forall S1, xtn S S1 -> exists S1', tsty S1 s S1' /\ xtn S' S1') /\ (forall S ss S', tstys S ss S' -> forall S1, xtn S S1 -> exists S1', tstys S1 ss S1' /\ xtn S' S1').
Proof.
  apply typed_ind.
  - intros S t x E S1 X. apply YId. apply X. exact E.
  - intros S op args ts t _ IH Y S1 X. eapply YOp; [apply IH; exact X|exact Y].
  - intros S c x y t _ I1 _ I2 _ I3 S1 X. apply YCond; auto.
  - intros S S' ss e t _ I1 _ I2 S1 X. destruct (I1 S1 X) as [S2 [A B]]. eapply YBlock; [exact A|apply I2; exact B].
  - intros S S1 _. apply YNil.
  - intros S e r t ts _ I1 _ I2 S1 X. apply YCons; auto.
  - intros S x t e G _ IH S1 X. exists (cupd S1 x t). split; [apply YDef; [exact G|apply IH; exact X]|apply xtn_upd; exact X].
  - intros S e err _ IH S1 X. exists S1. split; [apply YAssert; apply IH; exact X|exact X].
  - intros S x t em args ts _ IH Y S1 X. exists (cupd S1 x t). split; [eapply YEmb; [apply IH; exact X|exact Y]|apply xtn_upd; exact X].
  - intros S fmt args ts _ IH S1 X. exists S1. split; [eapply YLog; apply IH; exact X|exact X].
  - intros S S1 X. exists S1. split; [apply YSnil|exact X].
  - intros S S1 S2 s r _ I1 _ I2 T X. destruct (I1 T X) as [T1 [A B]]. destruct (I2 T1 B) as [T2 [C D]]. exists T2. split; [eapply YScons; eassumption|exact D].
Qed.
Lemma tstys_app : forall a b S S1 S2, tstys S a S1 -> tstys S1 b S2 -> tstys S (a ++ b) S2.
Proof. induction a as [|s a IH]; intros b S S1 S2 H K; inversion H as [|? T ? ? ? X Y]; subst; [exact K|]. cbn [app]. eapply YScons; [exact X|eapply IH; eassumption]. Qed.
Lemma tstys_one : forall s S S1, tsty S s S1 -> tstys S [s] S1.
Proof. intros s S S1 H. eapply YScons; [exact H|apply YSnil]. Qed.
Lemma texecs_app : forall a b rho, texecs rho (a ++ b) = obnd (texecs rho a) (fun x => obnd (texecs (snd x) b) (fun y => Ok (fst x ++ fst y, snd y))).
Proof.
  unfold texecs. induction a as [|s a IH]; intros b rho; cbn [app texec_list obnd fst snd]; [destruct (texec_list texec rho b) as [[lg rho']| |]; reflexivity|].
  destruct (texec rho s) as [[l1 r1]| |]; cbn [obnd fst snd]; [|reflexivity|reflexivity]. rewrite IH. destruct (texec_list texec r1 a) as [[l2 r2]| |]; cbn [obnd fst snd]; [|reflexivity|reflexivity].
  destruct (texec_list texec r2 b) as [[l3 r3]| |]; cbn [obnd fst snd]; [rewrite app_assoc; reflexivity|reflexivity|reflexivity].
Qed.
Lemma texecs_one : forall s rho, texecs rho [s] = texec rho s.
Proof. intros s rho. unfold texecs. cbn [texec_list]. destruct (texec rho s) as [[lg r]| |]; cbn [obnd fst snd]; [rewrite app_nil_r; reflexivity|reflexivity|reflexivity]. Qed.
Lemma sdefss_app : forall a b, sdefss (a ++ b) = sdefss a ++ sdefss b.
Proof. unfold sdefss. induction a as [|s a IH]; intros b; [reflexivity|]. cbn [app tdefs_stmts]. rewrite IH, app_assoc. reflexivity. Qed.

(** unfolding *)
Lemma u_redef_list : forall n e r, redefs n (e :: r) = let '(n1, b1, e') := redef n e in let '(n2, b2, r') := redefs n1 r in (n2, b1 ++ b2, e' :: r').
Proof. reflexivity. Qed.
Lemma u_redef_op : forall n op args, redef n (TOp op args) = let '(n1, b, args') := redefs n args in (n1, b, TOp op args').
Proof. reflexivity. Qed.
Lemma u_redef_block : forall n ss e, redef n (TBlock ss e) = let '(n1, ss') := redef_stmts n ss in let '(n2, b, e') := redef n1 e in (n2, [], TBlock (ss' ++ b) e').
Proof. reflexivity. Qed.
Lemma u_redef_stmts : forall n s r, redef_stmts n (s :: r) = let '(n1, a) := redef_stmt n s in let '(n2, b) := redef_stmts n1 r in (n2, a ++ b).
Proof. reflexivity. Qed.
Lemma u_redef_emb : forall n x t em args, redef_stmt n (TEmb x t em args) = let '(n1, b, args') := redefs n args in (n1, b ++ [TEmb x t em args']).
Proof. reflexivity. Qed.
Lemma u_redef_def : forall n x t e, redef_stmt n (TDef x t e) = let '(n1, b, e') := redef n e in (n1, b ++ [TDef x t e']).
Proof. reflexivity. Qed.
Lemma u_redef_assert : forall n e err, redef_stmt n (TAssert e err) = let '(n1, b, e') := redef n e in (n1, b ++ [TAssert e' err]).
Proof. reflexivity. Qed.
Lemma u_redef_log : forall n f args, redef_stmt n (TLog f args) = let '(n1, b, args') := redefs n args in (n1, b ++ [TLog f args']).
Proof. reflexivity. Qed.
Lemma u_tevals : forall rho e r, tevals rho (e :: r) = obnd (teval rho e) (fun a => obnd (tevals rho r) (fun b => Ok (fst a ++ fst b, snd a :: snd b))).
Proof. reflexivity. Qed.
Lemma u_teval_op : forall rho op args, teval rho (TOp op args) = obnd (tevals rho args) (fun a => obnd (sem_op op (map is_tlit args) (snd a)) (fun v => Ok (fst a, v))).
Proof. reflexivity. Qed.
Lemma u_tdefs_op : forall op args, tdefs (TOp op args) = tdefss args.
Proof. reflexivity. Qed.
Lemma u_tdefss : forall e r, tdefss (e :: r) = tdefs e ++ tdefss r.
Proof. reflexivity. Qed.
Lemma u_sdefss : forall s r, sdefss (s :: r) = sdefs s ++ sdefss r.
Proof. reflexivity. Qed.

Lemma redef_lit : forall e n n' b e', redef n e = (n', b, e') -> is_tlit e' = is_tlit e.
Proof.
  intros [t x|op args|c x y|ss e] n n' b e' H.
  - injection H as <- <- <-. reflexivity.
  - rewrite u_redef_op in H. destruct args as [|e r]; [injection H as <- <- <-; reflexivity|]. rewrite u_redef_list in H. destruct (redef n e) as [[n1 b1] e1]. destruct (redefs n1 r) as [[n2 b2] r1]. injection H as <- <- <-. destruct op; reflexivity.
  - cbn [redef] in H. destruct (redef n c) as [[n1 b1] c1]. destruct (if simple_cond c1 then (n1, [], c1) else (Datatypes.S n1, [TDef (cid n1) CBool c1], TId CBool (cid n1))) as [[n2 bc] c2]. destruct (redef n2 x) as [[n3 b2] x1]. destruct (redef n3 y) as [[n4 b3] y1]. injection H as <- <- <-. reflexivity.
  - rewrite u_redef_block in H. destruct (redef_stmts n ss) as [n1 ss1]. destruct (redef n1 e) as [[n2 b1] e1]. injection H as <- <- <-. reflexivity.
Qed.

(** what redefining an expression gives: b the definitions, e' the expression *)
Definition typed_as {A} (ty : tctx -> A -> Prop) (n n' : nat) (S : tctx) (b : list tstmt) (e' : A) : Prop :=
  forall S1, xtn S S1 -> cfree n S1 -> exists S2, tstys S1 b S2 /\ xtn S1 S2 /\ cfree n' S2 /\ ty S2 e'.
Definition evals_as {A B} (ev : tenv -> A -> outcome (list entry * B)) (n n' : nat) (e : A) (b : list tstmt) (e' : A) : Prop :=
  forall rho lg v, ev rho e = Ok (lg, v) -> forall rho1, same rho1 rho -> exists lb rho2, texecs rho1 b = Ok (lb, rho2) /\
    (forall y, ~ In y (cids n n') -> rho2 y = rho1 y) /\
    forall rho3, same rho3 rho -> (forall y, In y (cids n n') -> rho3 y = rho2 y) -> exists le, ev rho3 e' = Ok (le, v) /\ forall y, (ecnt y lb + ecnt y le = ecnt y lg)%nat.
Definition once {A} (df : A -> list Z) (n n' : nat) (e : A) (b : list tstmt) (e' : A) : Prop := forall y, (cnt y (sdefss b) + cnt y (df e') = cnt y (df e) + cnt y (cids n n'))%nat.
Definition red_e (S : tctx) (e : texp) (t : cty) : Prop := nnS S -> nnl (tdefs e) -> forall n n' b e', redef n e = (n', b, e') ->
  (n <= n')%nat /\ typed_as (fun S e => tty S e t) n n' S b e' /\ once tdefs n n' e b e' /\ evals_as teval n n' e b e'.
Definition red_es (S : tctx) (es : list texp) (ts : list cty) : Prop := nnS S -> nnl (tdefss es) -> forall n n' b es', redefs n es = (n', b, es') ->
  (n <= n')%nat /\ typed_as (fun S e => ttys S e ts) n n' S b es' /\ once tdefss n n' es b es' /\ evals_as tevals n n' es b es' /\ map is_tlit es' = map is_tlit es.
(** ... and a statement *)
Definition styped_as (n n' : nat) (S S' : tctx) (l : list tstmt) : Prop := forall S1, xtn S S1 -> cfree n S1 -> exists S2, tstys S1 l S2 /\ xtn S' S2 /\ cfree n' S2.
Definition execs_as {A} (ex : tenv -> A -> outcome (list entry * tenv)) (s : A) (l : list tstmt) : Prop :=
  forall rho lg rho', ex rho s = Ok (lg, rho') -> forall rho1, same rho1 rho -> exists lb rho2, texecs rho1 l = Ok (lb, rho2) /\ same rho2 rho' /\ forall y, ecnt y lb = ecnt y lg.
Definition red_s (S : tctx) (s : tstmt) (S' : tctx) : Prop := nnS S -> nnl (sdefs s) -> forall n n' l, redef_stmt n s = (n', l) ->
  (n <= n')%nat /\ nnS S' /\ styped_as n n' S S' l /\ (forall y, cnt y (sdefss l) = cnt y (sdefs s) + cnt y (cids n n'))%nat /\ execs_as texec s l.
Definition red_ss (S : tctx) (ss : list tstmt) (S' : tctx) : Prop := nnS S -> nnl (sdefss ss) -> forall n n' l, redef_stmts n ss = (n', l) ->
  (n <= n')%nat /\ nnS S' /\ styped_as n n' S S' l /\ (forall y, cnt y (sdefss l) = cnt y (sdefss ss) + cnt y (cids n n'))%nat /\ execs_as texecs ss l.

Lemma nnS_upd : forall S x t, nnS S -> 0 <= x -> nnS (cupd S x t).
Proof. intros S x t H X y N. unfold cupd in N. destruct (Z.eqb_spec y x) as [E|_]; [rewrite E; exact X|apply H; exact N]. Qed.
Lemma not_cids : forall y n m, 0 <= y -> ~ In y (cids n m).
Proof. intros y n m Y I. apply cids_in in I as [k [_ ->]]. pose proof (cid_neg k). lia. Qed.
Lemma same_out : forall n m a b, (forall y, ~ In y (cids n m) -> a y = b y) -> same a b.
Proof. intros n m a b H y Y. apply H. apply not_cids. exact Y. Qed.
(** an expression, then what uses it *)
Lemma ok_inv : forall A B (m : outcome A) (f : A -> outcome B) r, obnd m f = Ok r -> exists a, m = Ok a /\ f a = Ok r.
Proof. intros A B [a| |] f r H; try discriminate H. exists a. auto. Qed.
Lemma cids_part : forall n m k y, (n <= m <= k)%nat -> In y (cids n m) \/ In y (cids m k) -> In y (cids n k).
Proof. intros n m k y H I. rewrite (cids_split n m k H). apply in_or_app. exact I. Qed.
Lemma cids_apart : forall n m k y, In y (cids n m) -> In y (cids m k) -> False.
Proof. intros n m k y I J. apply cids_in in I as [a [A ->]]. apply cids_in in J as [c [C E]]. apply cid_inj in E. lia. Qed.

Theorem redefine_ok : (forall S e t, tty S e t -> red_e S e t) /\ (forall S es ts, ttys S es ts -> red_es S es ts) /\ (forall S s S1, tsty S s S1 -> red_s S s S1) /\ (forall S ss S1, tstys S ss S1 -> red_ss S ss S1).
Proof.
  apply typed_ind.
  - (* identifier *)
    intros S t x E NS ND n n' b e' H. cbn [redef] in H. injection H as <- <- <-. split; [lia|]. split; [|split].
    + intros S1 X C. exists S1. split; [apply YSnil|]. split; [apply xtn_refl|]. split; [exact C|]. apply YId. apply X. exact E.
    + intros y. rewrite cids_same. cbn. reflexivity.
    + intros rho lg v Ev rho1 Sa. exists [], rho1. split; [reflexivity|]. split; [reflexivity|]. intros rho3 Sb _. exists lg. cbn [teval] in *. rewrite (Sb x) by (apply NS; congruence). split; [exact Ev|reflexivity].
  - (* operator *)
    intros S op args ts t _ IH Y NS ND n n' b e' H. rewrite u_redef_op in H. destruct (redefs n args) as [[n1 b1] args'] eqn:Er. injection H as <- <- <-. rewrite u_tdefs_op in ND. destruct (IH NS ND _ _ _ _ Er) as [L [T [O [E Li]]]]. split; [exact L|]. split; [|split].
    + intros S1 X C. destruct (T S1 X C) as [S2 [T1 [T2 [T3 T4]]]]. exists S2. split; [exact T1|]. split; [exact T2|]. split; [exact T3|]. eapply YOp; [exact T4|exact Y].
    + exact O.
    + intros rho lg v Ev rho1 Sa. rewrite u_teval_op in Ev. apply ok_inv in Ev as [[la vs] [Ea Ev]]. cbn [fst snd] in Ev. apply ok_inv in Ev as [v' [Eo Ev]]. injection Ev as <- <-. destruct (E _ _ _ Ea _ Sa) as [lb [rho2 [X1 [X2 X3]]]]. exists lb, rho2. split; [exact X1|]. split; [exact X2|].
      intros rho3 Sb Sc. destruct (X3 rho3 Sb Sc) as [le [Y1 Y2]]. exists le. rewrite u_teval_op, Y1. cbn [obnd fst snd]. rewrite Li, Eo. split; [reflexivity|exact Y2].
  - (* conditional *)
    intros S c x y t _ IHc _ IHx _ IHy NS ND n n' b e' H. cbn [redef] in H. cbn [tdefs] in ND. apply nnl_app in ND as [Nc ND]. apply nnl_app in ND as [Nx Ny]. destruct (redef n c) as [[n1 b1] c1] eqn:Ec. destruct (IHc NS Nc _ _ _ _ Ec) as [L1 [T1 [O1 V1]]]. clear IHc.
    destruct (if simple_cond c1 then (n1, [], c1) else (Datatypes.S n1, [TDef (cid n1) CBool c1], TId CBool (cid n1))) as [[n2 bc] c2] eqn:Es.
    assert (C2 : (n1 <= n2)%nat /\ typed_as (fun S e => tty S e CBool) n n2 S (b1 ++ bc) c2 /\ once tdefs n n2 c (b1 ++ bc) c2 /\
      forall rho lg k, teval rho c = Ok (lg, VBool k) -> forall rho1, same rho1 rho -> exists lb rho2, texecs rho1 (b1 ++ bc) = Ok (lb, rho2) /\
        (forall y, ~ In y (cids n n2) -> rho2 y = rho1 y) /\ forall rho3, same rho3 rho -> (forall y, In y (cids n n2) -> rho3 y = rho2 y) -> exists le, teval rho3 c2 = Ok (le, VBool k) /\ forall y, (ecnt y lb + ecnt y le = ecnt y lg)%nat).
    { destruct (simple_cond c1) eqn:Si; injection Es as <- <- <-.
      - rewrite app_nil_r. split; [lia|]. split; [exact T1|]. split; [exact O1|]. intros rho lg k. apply V1.
      - assert (Sp : cids n (Datatypes.S n1) = cids n n1 ++ [cid n1]) by (rewrite (cids_split n n1 (Datatypes.S n1)) by lia; rewrite cids_one; reflexivity).
        split; [lia|]. split; [|split].
        + intros S1 X C. destruct (T1 S1 X C) as [S2 [A1 [A2 [A3 A4]]]]. exists (cupd S2 (cid n1) CBool). split; [eapply tstys_app; [exact A1|]; apply tstys_one; apply YDef; [exact I|exact A4]|]. split; [apply (xtn_trans _ S2); [exact A2|]; apply xtn_new; apply A3; lia|]. split; [apply cfree_new; exact A3|]. apply YId. unfold cupd. rewrite Z.eqb_refl. reflexivity.
        + intros z. specialize (O1 z). rewrite sdefss_app, Sp, !cnt_app. unfold sdefss at 2. cbn [tdefs_stmts tdefs]. rewrite u_ddef, app_nil_r, cnt_app. cbn [cnt_nil]. rewrite cnt_nil. lia.
        + intros rho lg k Ev rho1 Sa. destruct (V1 _ _ _ Ev _ Sa) as [lb [rho2 [X1 [X2 X3]]]]. destruct (X3 rho2) as [le [X4 X5]]; [apply (same_trans _ rho1); [apply (same_out n n1); exact X2|exact Sa]|reflexivity|].
          exists (lb ++ le), (tupd rho2 (cid n1) (VBool k)). split; [rewrite texecs_app, X1; cbn [obnd snd fst]; rewrite texecs_one, u_edef, X4; reflexivity|]. split.
          * intros z N. rewrite Sp in N. unfold tupd. destruct (Z.eqb_spec z (cid n1)) as [->|D]; [destruct N; apply in_or_app; right; left; reflexivity|]. apply X2. intros I. apply N. apply in_or_app. left. exact I.
          * intros rho3 Sb Sc. exists []. cbn [teval]. rewrite (Sc (cid n1)) by (rewrite Sp; apply in_or_app; right; left; reflexivity). unfold tupd. rewrite Z.eqb_refl. split; [reflexivity|]. intros z. rewrite ecnt_app, ecnt_nil. specialize (X5 z). lia. }
    destruct C2 as [L2 [T2 [O2 V2]]]. clear Es T1 O1 V1.
    destruct (redef n2 x) as [[n3 b2] x1] eqn:Ex. destruct (IHx NS Nx _ _ _ _ Ex) as [L3 [T3 [O3 V3]]]. clear IHx. destruct (redef n3 y) as [[n4 b3] y1] eqn:Ey. destruct (IHy NS Ny _ _ _ _ Ey) as [L4 [T4 [O4 V4]]]. clear IHy. injection H as <- <- <-. rewrite app_assoc. set (bb := b1 ++ bc) in *. clearbody bb.
    split; [lia|]. split; [|split].
    + intros S1 X C. destruct (T2 S1 X C) as [S2 [A1 [A2 [A3 A4]]]]. destruct (T3 S2 (xtn_trans _ _ _ X A2) A3) as [S3 [B1 [B2 [B3 B4]]]]. pose proof (xtn_trans _ _ _ A2 B2) as A5. destruct (T4 S3 (xtn_trans _ _ _ X A5) B3) as [S4 [C1 [C2 [C3 C4]]]].
      exists S4. split; [eapply tstys_app; [exact A1|]; eapply tstys_app; eassumption|]. split; [apply (xtn_trans _ S3); assumption|]. split; [exact C3|]. apply YCond; [apply (proj1 weaken _ _ _ A4); apply (xtn_trans _ S3); assumption|apply (proj1 weaken _ _ _ B4); exact C2|exact C4].
    + intros z. specialize (O2 z). specialize (O3 z). specialize (O4 z). rewrite (cids_split n n2 n4), (cids_split n2 n3 n4) by lia. rewrite !sdefss_app. cbn [tdefs]. rewrite !cnt_app. lia.
    + intros rho lg v Ev rho1 Sa. cbn [teval] in Ev. apply ok_inv in Ev as [[lc vc] [Ec' Ev]]. apply ok_inv in Ev as [[lx vx] [Ex' Ev]]. apply ok_inv in Ev as [[ly vy] [Ey' Ev]]. cbn [fst snd] in Ev. destruct vc as [| |k| | |]; try discriminate Ev. injection Ev as <- <-.
      destruct (V2 _ _ _ Ec' _ Sa) as [l1 [r1 [A1 [A2 A3]]]]. pose proof (same_trans _ _ _ (same_out _ _ _ _ A2) Sa) as S1. destruct (V3 _ _ _ Ex' _ S1) as [l2 [r2 [B1 [B2 B3]]]]. pose proof (same_trans _ _ _ (same_out _ _ _ _ B2) S1) as S2. destruct (V4 _ _ _ Ey' _ S2) as [l3 [r3 [C1 [C2 C3]]]].
      exists (l1 ++ l2 ++ l3), r3. split; [rewrite texecs_app, A1; cbn [obnd fst snd]; rewrite texecs_app, B1; cbn [obnd fst snd]; rewrite C1; reflexivity|]. split.
      * intros z N. rewrite C2, B2, A2; [reflexivity| | |]; intros I; apply N; [apply (cids_part n n2 n4); [lia|left; exact I]|apply (cids_part n n2 n4); [lia|right; apply (cids_part n2 n3 n4); [lia|left; exact I]]|apply (cids_part n n2 n4); [lia|right; apply (cids_part n2 n3 n4); [lia|right; exact I]]].
      * intros rho3 Sb Sc. destruct (A3 rho3 Sb) as [e1 [A4 A5]].
        { intros z I. rewrite Sc by (apply (cids_part n n2 n4); [lia|left; exact I]). rewrite C2, B2; [reflexivity| |]; intros J; [exact (cids_apart _ _ _ _ I J)|]. apply (cids_apart n n2 n4 z I). apply (cids_part n2 n3 n4); [lia|right; exact J]. }
        destruct (B3 rho3 Sb) as [e2 [B4 B5]]. { intros z I. rewrite Sc by (apply (cids_part n n2 n4); [lia|right; apply (cids_part n2 n3 n4); [lia|left; exact I]]). apply C2. intros J. exact (cids_apart _ _ _ _ I J). }
        destruct (C3 rho3 Sb) as [e3 [C4 C5]]. { intros z I. apply Sc. apply (cids_part n n2 n4); [lia|right; apply (cids_part n2 n3 n4); [lia|right; exact I]]. }
        exists (e1 ++ e2 ++ e3). cbn [teval]. rewrite A4, B4, C4. cbn [obnd fst snd]. split; [reflexivity|]. intros z. rewrite !ecnt_app. specialize (A5 z). specialize (B5 z). specialize (C5 z). lia.
  - (* block *)
    intros S S' bs e t _ IHs _ IHe NS ND n n' b e' H. rewrite u_redef_block in H. rewrite u_dblock in ND. apply nnl_app in ND as [N1 N2]. destruct (redef_stmts n bs) as [n1 bs1] eqn:E1. destruct (IHs NS N1 _ _ _ E1) as [L1 [NS' [T1 [O1 V1]]]]. destruct (redef n1 e) as [[n2 b1] e1] eqn:E2. destruct (IHe NS' N2 _ _ _ _ E2) as [L2 [T2 [O2 V2]]]. injection H as <- <- <-.
    split; [lia|]. split; [|split].
    + intros S1 X C. destruct (T1 S1 X C) as [S2 [A1 [A2 A3]]]. destruct (T2 S2 A2 A3) as [S3 [B1 [B2 [B3 B4]]]]. exists S1. split; [apply YSnil|]. split; [apply xtn_refl|]. split; [apply (cfree_le n); [exact C|lia]|]. eapply YBlock; [eapply tstys_app; eassumption|exact B4].
    + intros z. specialize (O1 z). specialize (O2 z). rewrite !u_dblock, sdefss_app, (cids_split n n1 n2) by lia. rewrite !cnt_app. change (sdefss []) with (@nil Z). rewrite cnt_nil. lia.
    + intros rho lg v Ev rho1 Sa. exists [], rho1. split; [reflexivity|]. split; [reflexivity|]. intros rho3 Sb _. rewrite u_eblock in Ev. apply ok_inv in Ev as [[l1 r1] [Es Ev]]. cbn [fst snd] in Ev. apply ok_inv in Ev as [[l2 v2] [Ee Ev]]. injection Ev as <- <-.
      destruct (V1 _ _ _ Es _ Sb) as [lb [r2 [A1 [A2 A3]]]]. destruct (V2 _ _ _ Ee _ A2) as [lc [r3 [B1 [B2 B3]]]]. destruct (B3 r3) as [le [B4 B5]]; [apply (same_trans _ r2); [apply (same_out n1 n2); exact B2|exact A2]|reflexivity|].
      exists ((lb ++ lc) ++ le). rewrite u_eblock, texecs_app, A1. cbn [obnd fst snd]. rewrite B1. cbn [obnd fst snd]. rewrite B4. split; [reflexivity|]. intros z. rewrite !ecnt_app, ecnt_nil. specialize (A3 z). specialize (B5 z). cbn [fst snd]. lia.
  - intros S NS _ n n' b es' H. injection H as <- <- <-. split; [lia|]. split; [|split; [|split]].
    + intros S1 X C. exists S1. split; [apply YSnil|]. split; [apply xtn_refl|]. split; [exact C|apply YNil].
    + intros z. rewrite cids_same. reflexivity.
    + intros rho lg v Ev rho1 Sa. exists [], rho1. split; [reflexivity|]. split; [reflexivity|]. intros rho3 _ _. exists lg. split; [exact Ev|reflexivity].
    + reflexivity.
  - intros S e r t ts _ IHe _ IHr NS ND n n' b es' H. rewrite u_redef_list in H. rewrite u_tdefss in ND. apply nnl_app in ND as [N1 N2]. destruct (redef n e) as [[n1 b1] e1] eqn:E1. destruct (IHe NS N1 _ _ _ _ E1) as [L1 [T1 [O1 V1]]]. destruct (redefs n1 r) as [[n2 b2] r1] eqn:E2. destruct (IHr NS N2 _ _ _ _ E2) as [L2 [T2 [O2 [V2 Li]]]]. injection H as <- <- <-.
    split; [lia|]. split; [|split; [|split]].
    + intros S1 X C. destruct (T1 S1 X C) as [S2 [A1 [A2 [A3 A4]]]]. destruct (T2 S2 (xtn_trans _ _ _ X A2) A3) as [S3 [B1 [B2 [B3 B4]]]]. exists S3. split; [eapply tstys_app; eassumption|]. split; [apply (xtn_trans _ S2); assumption|]. split; [exact B3|]. apply YCons; [apply (proj1 weaken _ _ _ A4); exact B2|exact B4].
    + intros z. specialize (O1 z). specialize (O2 z). rewrite sdefss_app, !u_tdefss, (cids_split n n1 n2) by lia. rewrite !cnt_app. lia.
    + intros rho lg v Ev rho1 Sa. rewrite u_tevals in Ev. apply ok_inv in Ev as [[le ve] [Ee Ev]]. apply ok_inv in Ev as [[lr vr] [Er Ev]]. cbn [fst snd] in Ev. injection Ev as <- <-.
      destruct (V1 _ _ _ Ee _ Sa) as [lb [r2 [A1 [A2 A3]]]]. pose proof (same_trans _ _ _ (same_out _ _ _ _ A2) Sa) as S1. destruct (V2 _ _ _ Er _ S1) as [lc [r3 [B1 [B2 B3]]]]. exists (lb ++ lc), r3. split; [rewrite texecs_app, A1; cbn [obnd fst snd]; rewrite B1; reflexivity|]. split.
      * intros z N. rewrite B2, A2; [reflexivity| |]; intros I; apply N; apply (cids_part n n1 n2); [lia|left; exact I|lia|right; exact I].
      * intros rho3 Sb Sc. destruct (A3 rho3 Sb) as [e2 [A4 A5]]. { intros z I. rewrite Sc by (apply (cids_part n n1 n2); [lia|left; exact I]). apply B2. intros J. exact (cids_apart _ _ _ _ I J). }
        destruct (B3 rho3 Sb) as [e3 [B4 B5]]. { intros z I. apply Sc. apply (cids_part n n1 n2); [lia|right; exact I]. }
        exists (e2 ++ e3). rewrite u_tevals, A4. cbn [obnd fst snd]. rewrite B4. split; [reflexivity|]. intros z. rewrite !ecnt_app. specialize (A5 z). specialize (B5 z). lia.
    + cbn [map]. rewrite (redef_lit _ _ _ _ _ E1), Li. reflexivity.
  - (* definition *)
    intros S x t e G _ IH NS ND n n' l H. rewrite u_redef_def in H. rewrite u_ddef in ND. apply nnl_app in ND as [N1 N2]. assert (Nx : 0 <= x) by (apply N2; left; reflexivity). destruct (redef n e) as [[n1 b1] e1] eqn:E1. destruct (IH NS N1 _ _ _ _ E1) as [L [T [O V]]]. injection H as <- <-. split; [exact L|]. split; [apply nnS_upd; assumption|]. split; [|split].
    + intros S1 X C. destruct (T S1 X C) as [S2 [A1 [A2 [A3 A4]]]]. exists (cupd S2 x t). split; [eapply tstys_app; [exact A1|]; apply tstys_one; apply YDef; [exact G|exact A4]|]. split; [apply xtn_upd; apply (xtn_trans _ S1); assumption|apply cfree_upd; assumption].
    + intros z. specialize (O z). rewrite sdefss_app, u_sdefss, !u_ddef. change (sdefss []) with (@nil Z). rewrite app_nil_r, !cnt_app. lia.
    + intros rho lg rho' Ev rho1 Sa. rewrite u_edef in Ev. apply ok_inv in Ev as [[le v] [Ee Ev]]. injection Ev as <- <-. destruct (V _ _ _ Ee _ Sa) as [lb [r2 [A1 [A2 A3]]]]. pose proof (same_trans _ _ _ (same_out _ _ _ _ A2) Sa) as S1. destruct (A3 r2 S1 (fun _ _ => eq_refl)) as [l2 [A4 A5]].
      exists (lb ++ l2), (tupd r2 x v). split; [rewrite texecs_app, A1; cbn [obnd fst snd]; rewrite texecs_one, u_edef, A4; reflexivity|]. split; [apply same_upd; exact S1|]. intros z. rewrite ecnt_app. apply A5.
  - (* assertion *)
    intros S e err _ IH NS ND n n' l H. rewrite u_redef_assert in H. rewrite u_dassert in ND. destruct (redef n e) as [[n1 b1] e1] eqn:E1. destruct (IH NS ND _ _ _ _ E1) as [L [T [O V]]]. injection H as <- <-. split; [exact L|]. split; [exact NS|]. split; [|split].
    + intros S1 X C. destruct (T S1 X C) as [S2 [A1 [A2 [A3 A4]]]]. exists S2. split; [eapply tstys_app; [exact A1|]; apply tstys_one; apply YAssert; exact A4|]. split; [apply (xtn_trans _ S1); assumption|exact A3].
    + intros z. specialize (O z). rewrite sdefss_app, u_sdefss, !u_dassert. change (sdefss []) with (@nil Z). rewrite app_nil_r, !cnt_app. lia.
    + intros rho lg rho' Ev rho1 Sa. rewrite u_eassert in Ev. apply ok_inv in Ev as [[le v] [Ee Ev]]. cbn [fst snd] in Ev. destruct v as [| |[|]| | |]; try discriminate Ev. injection Ev as <- <-. destruct (V _ _ _ Ee _ Sa) as [lb [r2 [A1 [A2 A3]]]]. pose proof (same_trans _ _ _ (same_out _ _ _ _ A2) Sa) as S1. destruct (A3 r2 S1 (fun _ _ => eq_refl)) as [l2 [A4 A5]].
      exists (lb ++ l2), r2. split; [rewrite texecs_app, A1; cbn [obnd fst snd]; rewrite texecs_one, u_eassert, A4; reflexivity|]. split; [exact S1|]. intros z. rewrite ecnt_app. apply A5.
  - (* built-in *)
    intros S x t em args ts _ IH Y NS ND n n' l H. rewrite u_redef_emb in H. rewrite u_demb in ND. apply nnl_app in ND as [N1 N2]. assert (Nx : 0 <= x) by (apply N2; left; reflexivity). destruct (redefs n args) as [[n1 b1] e1] eqn:E1. destruct (IH NS N1 _ _ _ _ E1) as [L [T [O [V _]]]]. injection H as <- <-. split; [exact L|]. split; [apply nnS_upd; assumption|]. split; [|split].
    + intros S1 X C. destruct (T S1 X C) as [S2 [A1 [A2 [A3 A4]]]]. exists (cupd S2 x t). split; [eapply tstys_app; [exact A1|]; apply tstys_one; eapply YEmb; [exact A4|exact Y]|]. split; [apply xtn_upd; apply (xtn_trans _ S1); assumption|apply cfree_upd; assumption].
    + intros z. specialize (O z). rewrite sdefss_app, u_sdefss, !u_demb. change (sdefss []) with (@nil Z). rewrite app_nil_r, !cnt_app. lia.
    + intros rho lg rho' Ev rho1 Sa. rewrite u_eemb in Ev. apply ok_inv in Ev as [[le vs] [Ee Ev]]. cbn [fst snd] in Ev. apply ok_inv in Ev as [v [Em Ev]]. injection Ev as <- <-. destruct (V _ _ _ Ee _ Sa) as [lb [r2 [A1 [A2 A3]]]]. pose proof (same_trans _ _ _ (same_out _ _ _ _ A2) Sa) as S1. destruct (A3 r2 S1 (fun _ _ => eq_refl)) as [l2 [A4 A5]].
      exists (lb ++ l2), (tupd r2 x v). split; [rewrite texecs_app, A1; cbn [obnd fst snd]; rewrite texecs_one, u_eemb, A4; cbn [obnd fst snd]; rewrite Em; reflexivity|]. split; [apply same_upd; exact S1|]. intros z. rewrite ecnt_app. apply A5.
  - (* log *)
    intros S fmt args ts _ IH NS ND n n' l H. rewrite u_redef_log in H. rewrite u_dlog in ND. destruct (redefs n args) as [[n1 b1] e1] eqn:E1. destruct (IH NS ND _ _ _ _ E1) as [L [T [O [V _]]]]. injection H as <- <-. split; [exact L|]. split; [exact NS|]. split; [|split].
    + intros S1 X C. destruct (T S1 X C) as [S2 [A1 [A2 [A3 A4]]]]. exists S2. split; [eapply tstys_app; [exact A1|]; apply tstys_one; eapply YLog; exact A4|]. split; [apply (xtn_trans _ S1); assumption|exact A3].
    + intros z. specialize (O z). rewrite sdefss_app, u_sdefss, !u_dlog. change (sdefss []) with (@nil Z). rewrite app_nil_r, !cnt_app. lia.
    + intros rho lg rho' Ev rho1 Sa. rewrite u_elog in Ev. apply ok_inv in Ev as [[le vs] [Ee Ev]]. cbn [fst snd] in Ev. injection Ev as <- <-. destruct (V _ _ _ Ee _ Sa) as [lb [r2 [A1 [A2 A3]]]]. pose proof (same_trans _ _ _ (same_out _ _ _ _ A2) Sa) as S1. destruct (A3 r2 S1 (fun _ _ => eq_refl)) as [l2 [A4 A5]].
      exists (lb ++ (l2 ++ [(fmt, vs)])), r2. split; [rewrite texecs_app, A1; cbn [obnd fst snd]; rewrite texecs_one, u_elog, A4; reflexivity|]. split; [exact S1|]. intros z. rewrite !ecnt_app. specialize (A5 z). lia.
  - intros S NS ND n n' l H. injection H as <- <-. split; [lia|]. split; [exact NS|]. split; [|split].
    + intros S1 X C. exists S1. split; [apply YSnil|]. split; assumption.
    + intros z. rewrite cids_same. reflexivity.
    + intros rho lg rho' Ev rho1 Sa. injection Ev as <- <-. exists [], rho1. split; [reflexivity|]. split; [exact Sa|reflexivity].
  - intros S S1 S2 s r _ IH1 _ IH2 NS ND n n' l H. rewrite u_redef_stmts in H. rewrite u_sdefss in ND. apply nnl_app in ND as [N1 N2]. destruct (redef_stmt n s) as [n1 a] eqn:E1. destruct (IH1 NS N1 _ _ _ E1) as [L1 [NS1 [T1 [O1 V1]]]]. destruct (redef_stmts n1 r) as [n2 b] eqn:E2. destruct (IH2 NS1 N2 _ _ _ E2) as [L2 [NS2 [T2 [O2 V2]]]]. injection H as <- <-.
    split; [lia|]. split; [exact NS2|]. split; [|split].
    + intros T X C. destruct (T1 T X C) as [U1 [A1 [A2 A3]]]. destruct (T2 U1 A2 A3) as [U2 [B1 [B2 B3]]]. exists U2. split; [eapply tstys_app; eassumption|]. split; assumption.
    + intros z. specialize (O1 z). specialize (O2 z). rewrite sdefss_app, u_sdefss, (cids_split n n1 n2) by lia. rewrite !cnt_app. lia.
    + intros rho lg rho' Ev rho1 Sa. unfold texecs in Ev. cbn [texec_list] in Ev. apply ok_inv in Ev as [[la ra] [Ea Ev]]. cbn [fst snd] in Ev. apply ok_inv in Ev as [[lb rb] [Eb Ev]]. injection Ev as <- <-. destruct (V1 _ _ _ Ea _ Sa) as [k1 [r1 [A1 [A2 A3]]]]. destruct (V2 _ _ _ Eb _ A2) as [k2 [r2 [B1 [B2 B3]]]].
      exists (k1 ++ k2), r2. split; [rewrite texecs_app, A1; cbn [obnd fst snd]; rewrite B1; reflexivity|]. split; [exact B2|]. intros z. cbn [fst snd]. rewrite !ecnt_app. specialize (A3 z). specialize (B3 z). lia.
Qed.
End Redefine.
