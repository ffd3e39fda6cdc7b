(** Proofs about Flatten.v: a flattened program is well typed. *)
From Coq Require Import String Ascii.
From Coq Require Import ZArith NArith List Bool Lia.
From Verif Require Import PField Interp Bits Zir CgProg CgWf CgEnd UintOpt Panic DeadCode ZPropStmt Source Str Abi Typed Flatten FlattenOps FlattenSim FlattenRun.
Import ListNotations.
Open Scope Z_scope.

Section Ty.
Context {PF : PrimeField}.
Hypothesis Hreq : (131 <= required_bits)%nat.

Lemma wid_uwn : forall w, wid (uwn w).
Proof. intros w. unfold wid. destruct w; cbn [uwn]; lia. Qed.
Lemma wid32 : wid 32.
Proof. exact (wid_uwn W32). Qed.
Lemma tywid_l : forall l, tywid (lptype l).
Proof. intros [| |w]; try exact I. apply wid_uwn. Qed.
Definition lt1 (Y : senv) (z : zexp) (l : lty) : Prop := has_ty Y z (lptype l).
Definition zty (Y : senv) (zs : list zexp) (t : cty) : Prop := Forall2 (lt1 Y) zs (leaves t).
Lemma has_ty_kind : forall Y z t, has_ty Y z t -> kty (zkind z) = t.
Proof. intros Y z t H. destruct z; cbn [has_ty] in H; cbn [zkind kty]; intuition congruence. Qed.
Lemma zslice_f2 : forall (R : zexp -> lty -> Prop) zs a b c i j r, Forall2 R zs (a ++ b ++ c) -> zslice zs i j = Some r -> length a = i -> j = (i + length b)%nat -> Forall2 R r b.
Proof. intros R zs a b c i j r H E Ha Hb. apply zslice_ok in E as [_ ->]. rewrite <- (slice_app _ a b c i j Ha Hb). apply f2_slice. exact H. Qed.
Lemma f2_concat_inv : forall A B (R : A -> B -> Prop) ls zs, Forall2 R zs (concat ls) -> exists cs, zs = concat cs /\ Forall2 (Forall2 R) cs ls.
Proof.
  intros A B R. induction ls as [|v l IH]; intros zs H; cbn [concat] in H; [inversion H; exists []; split; [reflexivity|constructor]|].
  apply Forall2_app_inv_r in H as [a [b [H1 [H2 ->]]]]. destruct (IH _ H2) as [cs [-> H3]]. exists (a :: cs). split; [reflexivity|constructor; assumption].
Qed.
Lemma f2_concat2 : forall A B (R : A -> B -> Prop) ls cs, Forall2 (Forall2 R) cs ls -> Forall2 R (concat cs) (concat ls).
Proof. intros A B R ls cs H. induction H; cbn [concat]; [constructor|]. apply Forall2_app; assumption. Qed.
Lemma repeat_len : forall A (l : list A) n, length (concat (repeat l n)) = (n * length l)%nat.
Proof. induction n as [|n IH]; [reflexivity|]. cbn. rewrite app_length, IH. reflexivity. Qed.
Lemma repeat_add : forall A (x : A) n m, repeat x (n + m) = repeat x n ++ repeat x m.
Proof. induction n as [|n IH]; intros m; [reflexivity|]. cbn. rewrite IH. reflexivity. Qed.
Lemma sel_go : forall Y es t, Forall (fun z => has_ty Y z t) es -> (fix go (l : list zexp) : Prop := match l with [] => True | e :: r => has_ty Y e t /\ go r end) es.
Proof. induction 1; [exact I|]. split; assumption. Qed.
Lemma zselect_ty : forall Y i col l z, zselect i col = Some z -> Forall (fun z => lt1 Y z l) col -> has_ty Y i (PU_ 32) -> Z.of_nat (length col) <= 2 ^ 32 -> lt1 Y z l.
Proof.
  intros Y i col l z H F Ti Lc. destruct col as [|z0 col]; [discriminate H|]. unfold zselect in H. destruct (forallb _ (z0 :: col)); [|discriminate H]. injection H as <-. pose proof (Forall_inv F) as F0. pose proof (has_ty_kind _ _ _ F0) as K. unfold lt1. cbn [has_ty].
  split; [destruct (zkind z0); cbn [kty] in *; symmetry; exact K|]. split; [apply tywid_l|]. split; [exact wid32|]. split; [exact Ti|]. split; [discriminate|]. split; [exact Lc|]. apply (sel_go Y (z0 :: col) (lptype l)). exact F.
Qed.
Lemma zsel_ty : forall Y ty n zs i r, zty Y zs (CArray ty n) -> has_ty Y i (PU_ 32) -> Z.of_nat n <= 2 ^ 32 -> zsel (prim_count ty) zs i = Some r -> zty Y r ty.
Proof.
  intros Y ty n zs i r Hz Ti Hn H. unfold zty in *. cbn [leaves] in Hz.
  assert (G : match prim_count ty with O => None | _ => mapO (zselect i) (transpose (prim_count ty) (zchunks (length zs) (prim_count ty) zs)) end = Some r -> Forall2 (lt1 Y) r (leaves ty)).
  { clear H. intros H. assert (K : prim_count ty <> O) by (destruct (prim_count ty); [discriminate H|lia]).
    assert (H' : mapO (zselect i) (transpose (prim_count ty) (zchunks (length zs) (prim_count ty) zs)) = Some r) by (destruct (prim_count ty); [discriminate H|exact H]). clear H. rename H' into H.
    destruct (f2_concat_inv _ _ _ _ _ Hz) as [cs [-> Hc]]. assert (Ln : length cs = n) by (rewrite (f2_len _ _ _ _ _ Hc); apply repeat_length).
    assert (Fc : Forall (fun c => Forall2 (lt1 Y) c (leaves ty)) cs). { clear - Hc. revert n Hc. induction cs as [|c cs IH]; intros n Hc; [constructor|]. destruct n as [|n]; inversion Hc; subst. constructor; [assumption|apply (IH n); assumption]. }
    assert (Lc : Forall (fun c => length c = prim_count ty) cs) by (revert Fc; apply Forall_impl; intros c Q; rewrite (f2_len _ _ _ _ _ Q); apply leaves_count).
    rewrite (zchunks_blocks (prim_count ty) cs (length (concat cs)) K Lc (le_n _)) in H. rewrite (transpose_eq _ _ Lc) in H.
    rewrite (map_nth_seq _ LB (leaves ty)), leaves_count.
    assert (M : forall js r, mapO (zselect i) (map (fun j => map (fun c => nth j c dz) cs) js) = Some r -> (forall j, In j js -> (j < prim_count ty)%nat) -> Forall2 (lt1 Y) r (map (fun j => nth j (leaves ty) LB) js)).
    { clear r H. induction js as [|j js IHj]; intros r H J; [injection H as <-; constructor|]. cbn [map] in H. change (obind (zselect i (map (fun c => nth j c dz) cs)) (fun b => obind (mapO (zselect i) (map (fun j => map (fun c => nth j c dz) cs) js)) (fun s => Some (b :: s))) = Some r) in H.
      destruct (zselect i (map (fun c => nth j c dz) cs)) as [z|] eqn:E; [|discriminate H]. cbn [obind] in H. destruct (mapO _ _) as [s|] eqn:E2; [|discriminate H]. injection H as <-. cbn [map]. constructor; [|apply IHj; [reflexivity|intros q Q; apply J; right; exact Q]].
      apply (zselect_ty Y i _ _ z E); [|exact Ti|rewrite map_length, Ln; exact Hn]. specialize (J j (or_introl eq_refl)). rewrite <- leaves_count in J. apply Forall_forall. intros q Q. apply in_map_iff in Q as [c [<- Q]]. rewrite Forall_forall in Fc. specialize (Fc c Q). clear - Fc J. revert j J. induction Fc as [|a b c m X _ IH]; intros j J; [cbn in J; lia|]. destruct j as [|j]; [exact X|]. cbn [nth]. apply IH. cbn [length] in J. lia. }
    apply M; [exact H|]. intros j J. apply in_seq in J. lia. }
  destruct i; try (apply G; exact H). clear G. unfold zsel in H. pose proof (f2_len _ _ _ _ _ Hz) as L. rewrite repeat_len, leaves_count in L. pose proof (zslice_ok _ _ _ _ H) as [B _]. set (k := Z.to_nat n0) in *.
  destruct (Nat.eq_dec (prim_count ty) 0) as [E0|E0].
  - apply zslice_ok in H as [_ ->]. rewrite E0, !Nat.mul_0_r in *. destruct (leaves ty) eqn:El; [|pose proof (leaves_count ty) as C; rewrite El, E0 in C; discriminate C]. cbn [Nat.sub firstn skipn]. constructor.
  - assert (Kn : (k < n)%nat) by nia. replace n with (k + (1 + (n - k - 1)))%nat in Hz by lia. rewrite !repeat_add, !concat_app in Hz. cbn [repeat concat] in Hz. rewrite app_nil_r in Hz. eapply zslice_f2; [exact Hz|exact H|rewrite repeat_len, leaves_count; reflexivity|rewrite leaves_count; lia].
Qed.
Lemma zeq_ty : forall Y x y z l, zeq x y = Some z -> lt1 Y x l -> lt1 Y y l -> lt1 Y z LB.
Proof.
  intros Y x y z l H Hx Hy. unfold zeq in H. pose proof (has_ty_kind _ _ _ Hx) as Kx. pose proof (has_ty_kind _ _ _ Hy) as Ky. unfold lt1 in *. destruct l as [| |w]; cbn [lptype] in *; destruct (zkind x); try discriminate Kx; destruct (zkind y); try discriminate Ky; injection H as <-; (split; [reflexivity|]); auto.
  exists (uwn w). split; [apply wid_uwn|]. auto.
Qed.
Lemma conj_ty : forall f Y v w ls z, conj_tree f v w = Some z -> Forall2 (lt1 Y) v ls -> Forall2 (lt1 Y) w ls -> lt1 Y z LB.
Proof.
  induction f as [|f IH]; intros Y v w ls z H Hv Hw.
  - destruct Hv as [|x l v ls Hx Hr]; inversion Hw as [|y ? w' ? Hy Hs]; subst; cbn [conj_tree] in H; [injection H as <-; reflexivity|].
    destruct Hr; [|destruct (length _ =? length _)%nat in H; discriminate H]. inversion Hs; subst. apply (zeq_ty Y x y z l); assumption.
  - assert (G : forall n, match conj_tree f (firstn n v) (firstn n w), conj_tree f (skipn n v) (skipn n w) with Some a, Some b => Some (ZBBin BAnd a b) | _, _ => None end = Some z -> lt1 Y z LB).
    { intros n G. destruct (conj_tree f (firstn n v) (firstn n w)) as [z1|] eqn:E1; [|discriminate G]. destruct (conj_tree f (skipn n v) (skipn n w)) as [z2|] eqn:E2; [|discriminate G]. injection G as <-. split; [reflexivity|].
      split; [exact (IH _ _ _ _ _ E1 (f2_firstn _ _ _ n _ _ Hv) (f2_firstn _ _ _ n _ _ Hw))|exact (IH _ _ _ _ _ E2 (f2_skipn _ _ _ n _ _ Hv) (f2_skipn _ _ _ n _ _ Hw))]. }
    destruct Hv as [|x l v ls Hx Hr]; inversion Hw as [|y ? w' ? Hy Hs]; subst; cbn [conj_tree] in H; [injection H as <-; reflexivity|].
    destruct Hr as [|x' l' v ls Hx' Hr]; inversion Hs as [|y' ? w'' ? Hy' Hs']; subst; [apply (zeq_ty Y x y z l); assumption|].
    destruct (length (x :: x' :: v) =? length (y :: y' :: w''))%nat; [|discriminate H]. apply (G (length (x :: x' :: v) / 2)%nat). exact H.
Qed.
Lemma moffset_ok : forall m t a b ms, ms = a ++ (m, t) :: b -> ~ In m (map fst a) -> moffset m ms = Some (length (flat_map (fun q => leaves (snd q)) a), prim_count t).
Proof.
  intros m t. induction a as [|[k s] a IH]; intros b ms -> N; cbn [app moffset flat_map].
  - rewrite String.eqb_refl. reflexivity.
  - cbn [map fst] in N. assert (D : String.eqb k m = false) by (apply String.eqb_neq; intros ->; apply N; left; reflexivity). rewrite D, (IH b _ eq_refl) by (intros X; apply N; right; exact X). cbn [snd]. rewrite app_length, leaves_count. reflexivity.
Qed.
Lemma arr_ty_leaves : forall Y ty sp ts n zss, arr_ty ty sp ts n -> Forall2 (zty Y) zss ts -> Forall2 (lt1 Y) (concat zss) (concat (repeat (leaves ty) n)).
Proof.
  intros Y ty sp ts n zss A. revert zss. induction A as [|sp ts n A IH|sp ts n m A IH]; intros zss H; inversion H as [|z ? zs ? Hz Hr]; subst; cbn [concat repeat].
  - constructor.
  - apply Forall2_app; [exact Hz|apply IH; exact Hr].
  - rewrite repeat_add, concat_app. apply Forall2_app; [exact Hz|apply IH; exact Hr].
Qed.
Lemma f2_flat : forall Y zss ts, Forall2 (zty Y) zss ts -> Forall2 (lt1 Y) (concat zss) (flat_map leaves ts).
Proof. induction 1; cbn [concat flat_map]; [constructor|]. apply Forall2_app; assumption. Qed.
Lemma zone : forall Y l s, Forall2 (lt1 Y) s [l] -> exists z, s = [z] /\ has_ty Y z (lptype l).
Proof. intros Y l s H. apply f2_one in H. exact H. Qed.
Ltac one R z T := apply f2_one in R as [? [-> R]]; cbn [leaves] in R; apply zone in R as [z [-> T]].
Ltac two R z T y U := let R1 := fresh in let R2 := fresh in apply f2_two in R as [? [? [-> [R1 R2]]]]; cbn [leaves] in R1, R2; apply zone in R1 as [z [-> T]]; apply zone in R2 as [y [-> U]].
Ltac fin H := cbn in H; injection H as <-; cbn [leaves]; constructor; [|constructor]; unfold lt1; cbn [has_ty lptype uw bare] in *.
Lemma comb_ty : forall Y op ts t zss zs, op_ty op ts t -> Forall2 (zty Y) zss ts -> comb op zss = Some zs -> zty Y zs t.
Proof.
  intros Y op ts t zss zs O R H. unfold zty in *. pose proof wid32 as W. pose proof wid_uwn as U. destruct O.
  - apply f2_nil in R as ->. fin H. reflexivity.
  - apply f2_nil in R as ->. fin H. reflexivity.
  - apply f2_nil in R as ->. fin H. split; [reflexivity|]. split; [apply U|]. unfold pow2. rewrite <- bits_uwn. assumption.
  - two R z T y V. fin H. auto.
  - one R z T. fin H. auto.
  - one R z T. fin H. auto.
  - one R z T. fin H. auto.
  - one R z T. fin H. auto.
  - two R z T y V. fin H. cbn [zcmp]. auto.
  - two R z T y V. fin H. cbn [zcmp]. auto.
  - two R z T y V. fin H. cbn [zcmp]. split; [reflexivity|]. exists (uwn w). auto.
  - two R z T y V. fin H. cbn [zcmp]. split; [reflexivity|]. exists (uwn w). auto.
  - apply f2_two in R as [s1 [s2 [-> [R1 R2]]]]. cbn [comb] in H. destruct (conj_tree (length s1) s1 s2) as [z|] eqn:E; [|discriminate H]. injection H as <-. constructor; [|constructor]. apply (conj_ty _ _ _ _ _ _ E R1 R2).
  - two R z T y V. fin H. auto.
  - one R z T. fin H. auto.
  - two R z T y V. fin H. auto.
  - one R z T. fin H. auto.
  - one R z T. fin H. auto.
  - one R z T. fin H. auto.
  - one R z T. fin H. split; [reflexivity|]. split; [apply U|]. split; [|exact T]. split; [reflexivity|]. split; [apply U|]. unfold pow2. rewrite <- bits_uwn. pose proof (range_pow w). lia.
  - apply f2_two in R as [s1 [s2 [-> [R1 R2]]]]. apply zone in R2 as [i [-> Ti]]. cbn [comb] in H. rewrite pop_one in H. apply (zsel_ty Y ty n s1 i zs); assumption.
  - apply f2_one in R as [s1 [-> R1]]. match goal with X : exists a b, _ |- _ => destruct X as [a [b [Em N]]] end. cbn [comb] in H. rewrite (moffset_ok m t a b ms Em N) in H. rewrite leaves_struct, Em, flat_map_app in R1. cbn [flat_map snd] in R1. eapply zslice_f2; [exact R1|exact H|reflexivity|rewrite leaves_count; reflexivity].
  - apply f2_one in R as [s1 [-> R1]]. match goal with X : nth_error _ _ = Some _ |- _ => rename X into N end. cbn [comb] in H. rewrite N in H. cbv zeta in H. apply nth_error_split in N as [a [b [-> La]]]. rewrite leaves_tuple, flat_map_app in R1. cbn [flat_map] in R1.
    assert (Q : forall l, sum_count l = length (flat_map leaves l)). { clear. induction l as [|t l IH]; [reflexivity|]. cbn [sum_count fold_right flat_map]. rewrite app_length, leaves_count. unfold sum_count in IH. rewrite IH. reflexivity. }
    rewrite firstn_app, <- La, firstn_all, Nat.sub_diag, app_nil_r, Q in H. eapply zslice_f2; [exact R1|exact H|reflexivity|rewrite leaves_count; reflexivity].
  - cbn [comb] in H. destruct (length (concat zss) =? n * prim_count ty)%nat; [|discriminate H]. injection H as <-. cbn [leaves]. eapply arr_ty_leaves; [eassumption|exact R].
  - apply f2_one in R as [s1 [-> R1]]. cbn [comb] in H. cbn [leaves] in *. match goal with X : (f <= t <= m)%nat |- _ => rename X into B end. replace m with (f + ((t - f) + (m - t)))%nat in R1 by lia. rewrite !repeat_add, !concat_app in R1. eapply zslice_f2; [exact R1|exact H|rewrite repeat_len, leaves_count; reflexivity|rewrite repeat_len, leaves_count; nia].
  - apply f2_one in R as [s1 [-> R1]]. cbn [comb] in H. injection H as <-. cbn [leaves]. apply f2_concat2. induction n; constructor; assumption.
  - cbn [comb] in H. injection H as <-. rewrite leaves_tuple. apply f2_flat. exact R.
  - cbn [comb] in H. injection H as <-. rewrite leaves_struct. match goal with X : length ks = _ |- _ => rename X into L end. assert (E : flat_map (fun q : string * cty => leaves (snd q)) (combine ks ts) = flat_map leaves ts). { clear R. revert ks L. induction ts as [|t ts IH]; intros [|k ks] L; try discriminate L; [reflexivity|]. cbn [combine flat_map snd]. rewrite IH by (injection L as L; exact L). reflexivity. } rewrite E. apply f2_flat. exact R.
Qed.
Lemma zconds_ty : forall Y c xs ys zs ls, zconds c xs ys = Some zs -> has_ty Y c PB_ -> Forall2 (lt1 Y) xs ls -> Forall2 (lt1 Y) ys ls -> Forall2 (lt1 Y) zs ls.
Proof.
  intros Y c xs. induction xs as [|x xs IH]; intros ys zs ls H C A B.
  - destruct ys as [|y ys]; [|discriminate H]. injection H as <-. exact A.
  - destruct ys as [|y ys]; [discriminate H|]. cbn [zconds] in H. destruct (zcond c x y) as [z|] eqn:E; [|discriminate H]. destruct (zconds c xs ys) as [l|] eqn:El; [|discriminate H]. injection H as <-.
    inversion A as [|? u ? us T1 RA]; subst. inversion B as [|? w ? ws T2 RB]; subst. constructor; [|apply (IH _ _ _ El C RA RB)]. pose proof (has_ty_kind _ _ _ T1) as K1. pose proof (has_ty_kind _ _ _ T2) as K2. unfold zcond in E. unfold lt1 in *.
    pose proof (tywid_l u) as Wu. destruct u as [| |w]; cbn [lptype] in *; destruct (zkind x); try discriminate K1; destruct (zkind y); try discriminate K2; injection E as <-; cbn [has_ty kty uw bare]; cbn [kty] in K1; auto 6.
Qed.

(** ** Statements *)
Definition declares (Y : senv) (x : Z) (t : cty) : Prop := Forall (fun p => Y (name (fst p)) = Some (lptype (snd p))) (flat_ids (SBase x) t).
Definition reld (S : tctx) (Y : senv) : Prop := forall x t, S x = Some t -> declares Y x t.
Definition touchd (D : list Z) (Y Y' : senv) : Prop := forall s, ~ In (base s) D -> Y' (name s) = Y (name s).
Definition agreed (S : tctx) (D : list Z) (Y' Y2 : senv) : Prop := forall s, S (base s) <> None \/ In (base s) D -> Y2 (name s) = Y' (name s).
Definition newd (D : list Z) (Y : senv) : Prop := forall s, In (base s) D -> Y (name s) = None.
Lemma declares_agree : forall Y Y2 x t, declares Y x t -> (forall s, base s = x -> Y2 (name s) = Y (name s)) -> declares Y2 x t.
Proof. intros Y Y2 x t H A. unfold declares in *. rewrite Forall_forall in *. intros [s l] I. cbn [fst snd]. rewrite A by (apply (ids_base _ _ _ _ I)). apply (H _ I). Qed.
Lemma reld_agree : forall S Y Y2, reld S Y -> (forall s, S (base s) <> None -> Y2 (name s) = Y (name s)) -> reld S Y2.
Proof. intros S Y Y2 R A x t E. apply (declares_agree Y); [apply R; exact E|]. intros s <-. apply A. congruence. Qed.
Lemma reld_touch : forall S Y Y' D, reld S Y -> touchd D Y Y' -> fresh S D -> reld S Y'.
Proof. intros S Y Y' D R T [_ F]. apply (reld_agree S Y); [exact R|]. intros s H. apply T. intros I. exact (H (F _ I)). Qed.
Lemma touchd_refl : forall D Y, touchd D Y Y.
Proof. intros D Y s _. reflexivity. Qed.
Lemma touchd_app : forall D E a b c, touchd D a b -> touchd E b c -> touchd (D ++ E) a c.
Proof. intros D E a b c X Y s N. rewrite Y, X; [reflexivity| |]; intros I; apply N, in_or_app; auto. Qed.
Lemma agreed_app_l : forall S D E a b c, agreed S (D ++ E) b c -> touchd E a b -> fresh S E -> (forall x, In x D -> ~ In x E) -> agreed S D a c.
Proof.
  intros S D E a b c A T [_ F] Di s H. rewrite A by (destruct H as [H|H]; [left; exact H|right; apply in_or_app; auto]). apply T. intros I. destruct H as [H|H]; [exact (H (F _ I))|exact (Di _ H I)].
Qed.
Lemma agreed_app_r : forall S D E b c, agreed S (D ++ E) b c -> agreed S E b c.
Proof. intros S D E b c A s [H|H]; apply A; [left; exact H|right; apply in_or_app; auto]. Qed.
Lemma agreed_refl : forall S D a, agreed S D a a.
Proof. intros S D a s _. reflexivity. Qed.
Lemma newd_app : forall D E Y, newd (D ++ E) Y -> newd D Y /\ newd E Y.
Proof. intros D E Y N. split; intros s I; apply N, in_or_app; auto. Qed.
Lemma newd_touch : forall D E Y Y', newd E Y -> touchd D Y Y' -> (forall x, In x D -> ~ In x E) -> newd E Y'.
Proof. intros D E Y Y' N T Di s I. rewrite T by (intros J; exact (Di _ J I)). apply N. exact I. Qed.

Lemma defs_ty : forall x ids zs Y Y1, NoDup (map fst ids) -> Forall (fun p : sid * lty => base (fst p) = x) ids ->
  (forall Y2, (forall s, base s <> x -> Y2 (name s) = Y (name s)) -> Forall2 (lt1 Y2) zs (map snd ids)) -> (forall s, base s <> x -> Y1 (name s) = Y (name s)) ->
  exists Y', sty_stmts Y1 (defs_zip ids zs) Y' /\ (forall s, ~ In s (map fst ids) -> Y' (name s) = Y1 (name s)) /\ Forall (fun p => Y' (name (fst p)) = Some (lptype (snd p))) ids.
Proof.
  intros x ids. induction ids as [|p ids IH]; intros zs Y Y1 N B E A.
  - exists Y1. split; [constructor|]. split; [reflexivity|constructor].
  - pose proof (E Y1 A) as E1. cbn [map] in E1. inversion E1 as [|z ? zs' ? Sz R1]; subst. cbn [map] in N. inversion N as [|? ? N1 N2]; subst. pose proof (Forall_inv B) as B1. pose proof (Forall_inv_tail B) as B2. cbv beta in B1.
    destruct (IH zs' Y (supd Y1 (name (fst p)) (lptype (snd p))) N2 B2) as [Y' [Q1 [Q2 Q3]]].
    + intros Y2 A2. specialize (E Y2 A2). inversion E; assumption.
    + intros s D. unfold supd. destruct (name s =? name (fst p)) eqn:En; [|apply A; exact D]. apply Z.eqb_eq, name_inj in En. subst s. congruence.
    + exists Y'. split; [cbn [defs_zip combine map fst snd]; econstructor; [constructor; exact Sz|exact Q1]|]. assert (O : forall s, s <> fst p -> supd Y1 (name (fst p)) (lptype (snd p)) (name s) = Y1 (name s)) by (intros s D; unfold supd; destruct (name s =? name (fst p)) eqn:En; [apply Z.eqb_eq, name_inj in En; contradiction|reflexivity]).
      split; [intros s D; cbn [map] in D; rewrite Q2 by (intros I; apply D; right; exact I); apply O; intros ->; apply D; left; reflexivity|].
      constructor; [rewrite Q2 by exact N1; unfold supd; rewrite Z.eqb_refl; reflexivity|exact Q3].
Qed.
Lemma supds_ok : forall (ids : list (sid * lty)) Y, NoDup (map fst ids) ->
  (forall s, ~ In s (map fst ids) -> supds Y (map (fun p => name (fst p)) ids) (map (fun p => lptype (snd p)) ids) (name s) = Y (name s)) /\ Forall (fun p => supds Y (map (fun p => name (fst p)) ids) (map (fun p => lptype (snd p)) ids) (name (fst p)) = Some (lptype (snd p))) ids.
Proof.
  induction ids as [|p ids IH]; intros Y N; [split; [reflexivity|constructor]|]. cbn [map] in N. inversion N as [|? ? N1 N2]; subst. destruct (IH (supd Y (name (fst p)) (lptype (snd p))) N2) as [Q2 Q3]. cbn [map supds].
  split; [|constructor; [rewrite Q2 by exact N1; unfold supd; rewrite Z.eqb_refl; reflexivity|exact Q3]].
  intros s D. cbn [map] in D. rewrite Q2 by (intros I; apply D; right; exact I). unfold supd. destruct (name s =? name (fst p)) eqn:En; [|reflexivity]. apply Z.eqb_eq, name_inj in En. contradiction D. left. symmetry. exact En.
Qed.
Lemma emb_io : forall em ts t, emb_ty em ts t -> flat_map (fun u => map lptype (leaves u)) ts = embed_in em /\ map lptype (leaves t) = embed_out em /\ embed_static em.
Proof.
  assert (Q : forall n, map lptype (concat (repeat [LB] n)) = repeat PB_ n) by (induction n as [|n IH]; [reflexivity|]; cbn; rewrite IH; reflexivity).
  intros em ts t Y. destruct em as [|n|n|n|n]; cbn [emb_ty] in Y; cbn [embed_in embed_out embed_static].
  - destruct Y as [-> ->]. auto.
  - destruct Y as [-> [w [-> <-]]]. cbn [flat_map leaves map app lptype]. rewrite Q. split; [reflexivity|]. split; [reflexivity|apply wid_uwn].
  - destruct Y as [-> [w [-> <-]]]. cbn [flat_map leaves map lptype]. rewrite app_nil_r, Q. split; [reflexivity|]. split; [reflexivity|apply wid_uwn].
  - destruct Y as [-> [-> B]]. cbn [flat_map leaves map lptype]. rewrite app_nil_r, Q, <- repeat_add. replace (n + n)%nat with (2 * n)%nat by lia. auto.
  - destruct Y as [-> [-> B]]. cbn [flat_map leaves map lptype app]. rewrite Q. split; [reflexivity|split; [reflexivity|exact (proj1 B)]].
Qed.
Lemma zty_map : forall Y zs t, zty Y zs t -> Forall2 (has_ty Y) zs (map lptype (leaves t)).
Proof. intros Y zs t H. unfold zty in H. induction H; constructor; assumption. Qed.
Lemma ztys_map : forall Y zss ts, Forall2 (zty Y) zss ts -> Forall2 (has_ty Y) (concat zss) (flat_map (fun u => map lptype (leaves u)) ts).
Proof. induction 1; [constructor|]. cbn [concat flat_map]. apply Forall2_app; [apply zty_map; assumption|assumption]. Qed.

Definition types_e (S : tctx) (e : texp) (t : cty) : Prop := forall ss zs Y, tflat e = Some (ss, zs) -> fresh S (tdefs e) -> reld S Y -> newd (tdefs e) Y ->
  exists Y', sty_stmts Y ss Y' /\ touchd (tdefs e) Y Y' /\ forall Y2, agreed S (tdefs e) Y' Y2 -> zty Y2 zs t.
Definition types_es (S : tctx) (es : list texp) (ts : list cty) : Prop := forall ss zss Y, tflats es = Some (ss, zss) -> fresh S (tdefss es) -> reld S Y -> newd (tdefss es) Y ->
  exists Y', sty_stmts Y ss Y' /\ touchd (tdefss es) Y Y' /\ forall Y2, agreed S (tdefss es) Y' Y2 -> Forall2 (zty Y2) zss ts.
Definition types_s (S : tctx) (s : tstmt) (S1 : tctx) : Prop := forall ss Y, tflat_stmt s = Some ss -> fresh S (sdefs s) -> reld S Y -> newd (sdefs s) Y ->
  exists Y', sty_stmts Y ss Y' /\ touchd (sdefs s) Y Y' /\ reld S1 Y'.
Definition types_ss (S : tctx) (ss : list tstmt) (S1 : tctx) : Prop := forall zs Y, tflat_stmts ss = Some zs -> fresh S (sdefss ss) -> reld S Y -> newd (sdefss ss) Y ->
  exists Y', sty_stmts Y zs Y' /\ touchd (sdefss ss) Y Y' /\ reld S1 Y'.
Lemma sty_one : forall Y s Y', sty_stmt Y s Y' -> sty_stmts Y [s] Y'.
Proof. intros. econstructor; [eassumption|constructor]. Qed.

Theorem flatten_types : (forall S e t, tty S e t -> types_e S e t) /\ (forall S es ts, ttys S es ts -> types_es S es ts) /\ (forall S s S1, tsty S s S1 -> types_s S s S1) /\ (forall S ss S1, tstys S ss S1 -> types_ss S ss S1).
Proof.
  apply typed_ind.
  - intros S t x E ss zs Y H Fr R Nw. cbn [tflat] in H. injection H as <- <-. exists Y. split; [constructor|]. split; [apply touchd_refl|]. intros Y2 A. assert (H2 : declares Y2 x t) by (apply (declares_agree Y); [apply R; exact E|]; intros s <-; apply A; left; congruence).
    unfold zty, declares in *. rewrite <- (ids_leaves t (SBase x)). clear - H2 Hreq. induction H2 as [|p ps Ep Hps IH]; [constructor|]. cbn [map]. constructor; [|exact IH]. unfold lt1. cbn [has_ty]. split; [destruct p as [s [| |w]]; reflexivity|]. split; [exact Ep|apply tywid_l].
  - intros S op args ts t _ IH O ss zs Y H Fr R Nw. cbn [tflat] in H. destruct (flat_list tflat args) as [[sa zss]|] eqn:E; [|discriminate H]. destruct (comb op zss) as [zs'|] eqn:Ec; [|discriminate H]. injection H as <- <-.
    cbn [tdefs] in *. destruct (IH sa zss Y E Fr R Nw) as [Y' [X [To A]]]. exists Y'. split; [exact X|]. split; [exact To|]. intros Y2 A2. apply (comb_ty Y2 op ts t zss zs' O (A Y2 A2) Ec).
  - intros S c x y t _ IHc _ IHx _ IHy ss zs Y H Fr R Nw. cbn [tflat] in H. destruct (tflat c) as [[sc zc]|] eqn:Ec; [|discriminate H]. destruct (tflat x) as [[sx zx]|] eqn:Ex; [|discriminate H]. destruct (tflat y) as [[sy zy]|] eqn:Ey; [|discriminate H].
    destruct (popE zc) as [z|] eqn:Ep; [|discriminate H]. destruct (zconds z zx zy) as [zs'|] eqn:Ez; [|discriminate H]. injection H as <- <-. cbn [tdefs] in *. destruct (fresh_app _ _ _ Fr) as [Fc [Fxy Dc]]. destruct (fresh_app _ _ _ Fxy) as [Fx [Fy Dx]].
    destruct (newd_app _ _ _ Nw) as [Nc Nxy]. destruct (IHc sc zc Y Ec Fc R Nc) as [Y1 [X1 [To1 A1]]]. assert (R1 : reld S Y1) by (apply (reld_touch _ Y _ (tdefs c)); assumption). apply (newd_touch (tdefs c) _ Y Y1) in Nxy; [|assumption|exact Dc]. destruct (newd_app _ _ _ Nxy) as [Nx Ny].
    destruct (IHx sx zx Y1 Ex Fx R1 Nx) as [Y2 [X2 [To2 A2]]]. assert (R2 : reld S Y2) by (apply (reld_touch _ Y1 _ (tdefs x)); assumption). apply (newd_touch (tdefs x) _ Y1 Y2) in Ny; [|assumption|exact Dx].
    destruct (IHy sy zy Y2 Ey Fy R2 Ny) as [Y3 [X3 [To3 A3]]].
    assert (Zc : forall Y4, agreed S (tdefs c) Y1 Y4 -> has_ty Y4 z PB_). { intros Y4 A. specialize (A1 Y4 A). apply zone in A1 as [z' [-> Tz]]. rewrite pop_one in Ep. injection Ep as ->. exact Tz. }
    exists Y3. split.
    + apply (sty_app sc _ Y Y1); [exact X1|]. pose proof (sty_one _ _ _ (SIf Y1 z sx sy Y2 Y3 (Zc Y1 (agreed_refl _ _ _)) X2 X3)) as Q. destruct sx; [destruct sy|]; try exact Q. inversion X2; subst. inversion X3; subst. constructor.
    + split; [apply (touchd_app _ _ _ Y1); [exact To1|]; apply (touchd_app _ _ _ Y2); assumption|].
      intros Y4 A. assert (Q1 : agreed S (tdefs c) Y1 Y4) by (apply (agreed_app_l S (tdefs c) (tdefs x ++ tdefs y) Y1 Y3); [exact A|apply (touchd_app _ _ _ Y2); assumption|exact Fxy|exact Dc]).
      apply agreed_app_r in A. assert (Q2 : agreed S (tdefs x) Y2 Y4) by (apply (agreed_app_l S (tdefs x) (tdefs y) Y2 Y3); assumption). apply agreed_app_r in A.
      exact (zconds_ty Y4 z zx zy zs' _ Ez (Zc _ Q1) (A2 _ Q2) (A3 _ A)).
  - intros S S' bs e t Ys IHs _ IHe ss zs Y H Fr R Nw. rewrite u_fblock in H. destruct (tflat_stmts bs) as [sa|] eqn:Ea; [|discriminate H]. destruct (tflat e) as [[sb zb]|] eqn:Eb; [|discriminate H]. injection H as <- <-. rewrite u_dblock in *. destruct (fresh_app _ _ _ Fr) as [F1 [F2 D]]. destruct (newd_app _ _ _ Nw) as [N1 N2].
    destruct (IHs sa Y Ea F1 R N1) as [Y1 [X1 [To1 R1]]]. assert (F3 : fresh S' (tdefs e)) by (apply (fresh_next S S' (sdefss bs)); [exact Fr|apply (dom_tstys bs); exact Ys]). apply (newd_touch (sdefss bs) _ Y Y1) in N2; [|assumption|exact D].
    destruct (IHe sb zb Y1 Eb F3 R1 N2) as [Y2 [X2 [To2 A2]]]. exists Y2. split; [apply (sty_app sa _ Y Y1); assumption|]. split; [apply (touchd_app _ _ _ Y1); assumption|].
    intros Y3 A. apply A2. intros s [Q|Q]; apply A; [|right; apply in_or_app; right; exact Q]. destruct (dom_tstys _ _ _ Ys _ Q) as [Q1|Q1]; [left; exact Q1|right; apply in_or_app; left; exact Q1].
  - intros S ss zss Y H Fr R Nw. unfold tflats in H. cbn [flat_list] in H. injection H as <- <-. exists Y. split; [constructor|]. split; [apply touchd_refl|constructor].
  - intros S e es t ts _ IHe _ IHr ss zss Y H Fr R Nw. unfold tflats in H. cbn [flat_list] in H. destruct (tflat e) as [[sa za]|] eqn:Ea; [|discriminate H]. destruct (flat_list tflat es) as [[sb zb]|] eqn:Eb; [|discriminate H]. cbn [fst snd] in H. injection H as <- <-.
    unfold tdefss in *. cbn [tdefs_list] in *. destruct (fresh_app _ _ _ Fr) as [F1 [F2 D]]. destruct (newd_app _ _ _ Nw) as [N1 N2]. destruct (IHe sa za Y Ea F1 R N1) as [Y1 [X1 [To1 A1]]]. assert (R1 : reld S Y1) by (apply (reld_touch _ Y _ (tdefs e)); assumption). apply (newd_touch (tdefs e) _ Y Y1) in N2; [|assumption|exact D].
    destruct (IHr sb zb Y1 Eb F2 R1 N2) as [Y2 [X2 [To2 A2]]]. exists Y2. split; [apply (sty_app sa _ Y Y1); assumption|]. split; [apply (touchd_app _ _ _ Y1); assumption|]. intros Y3 A. constructor; [apply A1; apply (agreed_app_l S _ (tdefss es) Y1 Y2); assumption|apply A2; apply agreed_app_r in A; exact A].
  - intros S x t e G _ IH ss Y H Fr R Nw. rewrite u_fdef in H. destruct (tflat e) as [[sa za]|] eqn:Ea; [|discriminate H]. destruct (length (flat_ids (SBase x) t) =? length za)%nat eqn:El; [|discriminate H]. injection H as <-. rewrite u_ddef in *. destruct (fresh_app _ _ _ Fr) as [F1 [F2 D]]. destruct (newd_app _ _ _ Nw) as [N1 N2].
    destruct (IH sa za Y Ea F1 R N1) as [Y1 [X1 [To1 A1]]]. assert (Sx : S x = None) by (apply F2; left; reflexivity). assert (Dx : ~ In x (tdefs e)) by (intros Q; apply (D x Q); left; reflexivity).
    destruct (defs_ty x (flat_ids (SBase x) t) za Y1 Y1) as [Y' [Q1 [Q2 Q3]]].
    + apply ids_nodup. exact G.
    + apply Forall_forall. intros [s lt] Q. apply (ids_base _ _ _ _ Q).
    + intros Y2 A. rewrite ids_leaves. apply A1. intros s [Q|Q]; apply A; intros Q'; rewrite Q' in Q; [exact (Q Sx)|exact (Dx Q)].
    + reflexivity.
    + exists Y'. split; [apply (sty_app sa _ Y Y1); assumption|]. assert (O : forall s, base s <> x -> Y' (name s) = Y1 (name s)) by (intros s Q; apply Q2; intros Q'; apply in_map_iff in Q' as [[s' lt] [<- Q']]; apply Q; apply (ids_base _ _ _ _ Q')).
      split; [intros s Q; rewrite O, To1; [reflexivity| |]; [intros Q'; apply Q, in_or_app; left; exact Q'|intros <-; apply Q, in_or_app; right; left; reflexivity]|].
      assert (R1 : reld S Y1) by (apply (reld_touch _ Y _ (tdefs e)); assumption).
      intros y u Ey. unfold cupd in Ey. destruct (y =? x) eqn:E; [apply Z.eqb_eq in E; subst y; injection Ey as <-; exact Q3|].
      apply (declares_agree Y1); [apply R1; exact Ey|]. intros s <-. apply O. intros Q. rewrite Q, Z.eqb_refl in E. discriminate E.
  - intros S e err _ IH ss Y H Fr R Nw. rewrite u_fassert in H. destruct (tflat e) as [[sa za]|] eqn:Ea; [|discriminate H]. destruct (popE za) as [z|] eqn:Ep; [|discriminate H]. injection H as <-. rewrite u_dassert in *.
    destruct (IH sa za Y Ea Fr R Nw) as [Y1 [X1 [To1 A1]]]. specialize (A1 Y1 (agreed_refl _ _ _)). apply zone in A1 as [z' [-> Tz]]. rewrite pop_one in Ep. injection Ep as ->. exists Y1. split; [apply (sty_app sa _ Y Y1); [exact X1|apply sty_one; constructor; exact Tz]|]. split; [exact To1|]. apply (reld_touch _ Y _ (tdefs e)); assumption.
  - intros S x t em args ts _ IH O ss Y H Fr R Nw. rewrite u_femb in H. destruct (tflats args) as [[sa zss]|] eqn:Ea; [|discriminate H]. injection H as <-. rewrite u_demb in *. destruct (fresh_app _ _ _ Fr) as [F1 [F2 D]]. destruct (newd_app _ _ _ Nw) as [N1 N2].
    destruct (IH sa zss Y Ea F1 R N1) as [Y1 [X1 [To1 A1]]]. destruct (emb_io em ts t O) as [Ein [Eout Est]]. destruct (supds_ok (flat_ids (SBase x) t) Y1 (ids_nodup t _ (emb_good _ _ _ O))) as [Q2 Q3].
    assert (Eo : map (fun p : sid * lty => lptype (snd p)) (flat_ids (SBase x) t) = embed_out em) by (rewrite <- Eout, <- (ids_leaves t (SBase x)), map_map; reflexivity).
    pose proof (ztys_map Y1 zss ts (A1 Y1 (agreed_refl _ _ _))) as Tin. rewrite Ein in Tin. apply (newd_touch (tdefss args) _ Y Y1) in N2; [|assumption|exact D].
    exists (supds Y1 (map (fun p => name (fst p)) (flat_ids (SBase x) t)) (embed_out em)). split; [|rewrite <- Eo].
    + apply (sty_app sa _ Y Y1); [exact X1|]. apply sty_one. constructor; [exact Tin|exact Est|rewrite <- Eo, !map_length; reflexivity|]. destruct em; try exact I. apply Forall_forall. intros n I. apply in_map_iff in I as [[s lt] [<- I]]. apply N2. left. symmetry. apply (ids_base _ _ _ _ I).
    + set (Y' := supds Y1 (map (fun p => name (fst p)) (flat_ids (SBase x) t)) (map (fun p => lptype (snd p)) (flat_ids (SBase x) t))) in *.
      assert (Of : forall s, base s <> x -> Y' (name s) = Y1 (name s)) by (intros s P; apply Q2; intros Q'; apply in_map_iff in Q' as [[s' lt] [<- Q']]; apply P; apply (ids_base _ _ _ _ Q')).
      split; [intros s P; rewrite Of, To1; [reflexivity| |]; [intros Q'; apply P, in_or_app; left; exact Q'|intros <-; apply P, in_or_app; right; left; reflexivity]|].
      assert (R1 : reld S Y1) by (apply (reld_touch _ Y _ (tdefss args)); assumption).
      intros y u Ey. unfold cupd in Ey. destruct (y =? x) eqn:E; [apply Z.eqb_eq in E; subst y; injection Ey as <-; exact Q3|].
      apply (declares_agree Y1); [apply R1; exact Ey|]. intros s <-. apply Of. intros P. rewrite P, Z.eqb_refl in E. discriminate E.
  - intros S fmt args ts _ IH ss Y H Fr R Nw. rewrite u_flog in H. destruct (tflats args) as [[sa zss]|] eqn:Ea; [|discriminate H]. injection H as <-. rewrite u_dlog in *.
    destruct (IH sa zss Y Ea Fr R Nw) as [Y1 [X1 [To1 A1]]]. exists Y1. split; [apply (sty_app sa _ Y Y1); [exact X1|]; apply sty_one; econstructor; apply (ztys_map Y1 zss ts (A1 Y1 (agreed_refl _ _ _)))|]. split; [exact To1|]. apply (reld_touch _ Y _ (tdefss args)); assumption.
  - intros S zs Y H Fr R Nw. cbn in H. injection H as <-. exists Y. split; [constructor|]. split; [apply touchd_refl|exact R].
  - intros S S1 S2 s ss Y1 IH1 Y2 IH2 zs Y H Fr R Nw. unfold tflat_stmts in H. cbn [flat_stmt_list] in H. destruct (tflat_stmt s) as [za|] eqn:Ea; [|discriminate H]. destruct (flat_stmt_list tflat_stmt ss) as [zb|] eqn:Eb; [|discriminate H]. injection H as <-.
    unfold sdefss in *. cbn [tdefs_stmts] in *. destruct (fresh_app _ _ _ Fr) as [F1 [_ D]]. destruct (newd_app _ _ _ Nw) as [N1 N2]. destruct (IH1 za Y Ea F1 R N1) as [Y3 [X1 [To1 R1]]].
    assert (F2 : fresh S1 (sdefss ss)) by (apply (fresh_next S S1 (sdefs s)); [exact Fr|apply dom_tsty; exact Y1]). apply (newd_touch (sdefs s) _ Y Y3) in N2; [|assumption|exact D].
    destruct (IH2 zb Y3 Eb F2 R1 N2) as [Y4 [X2 [To2 R2]]]. exists Y4. split; [apply (sty_app za _ Y Y3); assumption|]. split; [apply (touchd_app _ _ _ Y3); assumption|exact R2].
Qed.
End Ty.
