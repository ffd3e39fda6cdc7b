(** C35: the numbering of the wires in the exported r1cs and in the exported witness file. *)
From Coq Require Import ZArith List Bool Lia Sorting.Sorted.
From Verif Require Import PField SMap Concrete IR IRSpec Wf IRProofs Interp InterpProofs Optimizer OptimizerProofs OptPipeline OptExtra PropIRLemmas Bits Flat FlatProofs Zir Codegen CgBase CgGadgets CgExpr CgStmt CgEmit CgProg CgWf CgEnd PropCheck Backend OutOrder PropBackend Circom.
Import ListNotations.
Open Scope Z_scope.

Section Proofs.
Context {PF : PrimeField}.
(** the public part: ~one, the return values, the public arguments *)
Definition public_part (p : prog) : list var := vone :: map vpub (seq 0 (pret p)) ++ public_inputs p.
(** all wires, as they should be numbered *)
Definition wires (p : prog) : list var := public_part p ++ filter (fun v => negb (mem v (public_part p))) (set_of (constraint_vars (flat_stmts (pstmts p)))).

Lemma public_part_nodup : forall p, NoDup (vone :: map pid (pargs p)) -> Forall inner (map pid (pargs p)) -> NoDup (public_part p).
Proof.
  intros p N Hi. unfold public_part, public_inputs. apply NoDup_cons_iff in N as [N1 N2]. rewrite Forall_forall in Hi.
  assert (Sub : forall x, In x (map pid (filter (fun a => negb (pprivate a)) (pargs p))) -> In x (map pid (pargs p))) by (intros x X; apply in_map_iff in X as [a [<- X]]; apply filter_In in X; apply in_map; tauto).
  constructor.
  - intros X. apply in_app_or in X as [X|X]; [apply in_map_iff in X as [i [X _]]; unfold vpub, vone in X; lia|apply N1, Sub, X].
  - assert (Nf : NoDup (map pid (filter (fun a => negb (pprivate a)) (pargs p)))).
    { clear - N2. induction (pargs p) as [|a l IH]; cbn; [constructor|]. cbn in N2. apply NoDup_cons_iff in N2 as [A B]. destruct (negb (pprivate a)); cbn; auto. constructor; auto. intros X. apply A. apply in_map_iff in X as [b [<- X]]. apply filter_In in X. apply in_map. tauto. }
    assert (No : NoDup (map vpub (seq 0 (pret p)))) by (apply FinFun.Injective_map_NoDup; [intros a b; apply vpub_inj|apply seq_NoDup]).
    assert (D : forall x, In x (map vpub (seq 0 (pret p))) -> ~ In x (map pid (filter (fun a => negb (pprivate a)) (pargs p)))).
    { intros x X Y. apply in_map_iff in X as [i [<- _]]. exact (vpub_out i (Hi _ (Sub _ Y))). }
    revert No D. generalize (map vpub (seq 0 (pret p))) as l. induction l as [|x l IH]; intros No D; [exact Nf|]. cbn. apply NoDup_cons_iff in No as [A B]. constructor; [rewrite in_app_iff; intros [X|X]; [contradiction|exact (D x (or_introl eq_refl) X)]|]. apply IH; auto. intros y Y. apply D. right. exact Y.
Qed.
Lemma provide_public : forall p, NoDup (vone :: map pid (pargs p)) -> Forall inner (map pid (pargs p)) ->
  fold_left provide (map pid (filter (fun a => negb (pprivate a)) (pargs p))) (fold_left provide (map vpub (seq 0 (pret p))) [vone]) = public_part p.
Proof.
  intros p N Hi. pose proof (public_part_nodup p N Hi) as P. unfold public_part, public_inputs in *.
  assert (G : forall a b c : list var, NoDup (a ++ b) -> fold_left provide b a = a ++ b).
  { intros a b _ H. rewrite provide_all.
    - f_equal. apply filter_all. intros x X. destruct (mem x a) eqn:M; auto. apply mem_In in M. exfalso. clear - H X M. induction a as [|y a IH]; [destruct M|]. cbn in H. apply NoDup_cons_iff in H as [A B]. destruct M as [->|M]; [apply A, in_or_app; right; exact X|auto].
    - clear - H. induction a as [|y a IH]; [constructor|]. cbn in H. apply NoDup_cons_iff in H as [A B]. constructor; auto. intros X. apply A, in_or_app. left. exact X.
    - clear - H. induction a as [|y a IH]; [exact H|]. cbn in H. apply NoDup_cons_iff in H as [A B]. auto. }
  rewrite (G [vone] (map vpub (seq 0 (pret p))) []).
  - rewrite G; [|exact []|]; cbn [app]; [reflexivity|exact P].
  - cbn [app]. clear - P. change (vone :: map vpub (seq 0 (pret p)) ++ map pid (filter (fun a => negb (pprivate a)) (pargs p))) with ((vone :: map vpub (seq 0 (pret p))) ++ map pid (filter (fun a => negb (pprivate a)) (pargs p))) in P.
    revert P. generalize (vone :: map vpub (seq 0 (pret p))) as a. induction a as [|y a IH]; intros H; [constructor|]. cbn in H. apply NoDup_cons_iff in H as [A B]. constructor; auto. intros X. apply A, in_or_app. left. exact X.
Qed.
Lemma set_of_ext : forall a b, (forall x, In x a <-> In x b) -> set_of a = set_of b.
Proof. intros a b H. destruct (set_of_spec a) as [A1 A2], (set_of_spec b) as [B1 B2]. apply sorted_unique; auto. intros x. rewrite A2, B2. auto. Qed.
Lemma sorted_nodup : forall l, sorted l -> NoDup l.
Proof. intros l H. induction H as [|x l Hl IH Hx]; constructor; auto. intros X. rewrite Forall_forall in Hx. specialize (Hx _ X). lia. Qed.
Lemma wires_nodup : forall p, NoDup (vone :: map pid (pargs p)) -> Forall inner (map pid (pargs p)) -> NoDup (wires p).
Proof.
  intros p N Hi. unfold wires. pose proof (public_part_nodup p N Hi) as P. pose proof (sorted_nodup _ (proj1 (set_of_spec (constraint_vars (flat_stmts (pstmts p)))))) as Q. revert P Q. generalize (set_of (constraint_vars (flat_stmts (pstmts p)))) as b. generalize (public_part p) as a. intros a b P Q.
  assert (D : forall x, In x a -> ~ In x (filter (fun v => negb (mem v a)) b)). { intros x X Y. apply filter_In in Y as [_ Y]. apply mem_In in X. rewrite X in Y. discriminate Y. }
  assert (Nb : NoDup (filter (fun v => negb (mem v a)) b)) by (apply NoDup_filter; exact Q). revert Nb D. generalize (filter (fun v => negb (mem v a)) b) as c. intros c Nb D. induction a as [|y a IH]; [exact Nb|].
  cbn. apply NoDup_cons_iff in P as [A B]. constructor; [rewrite in_app_iff; intros [X|X]; [contradiction|exact (D y (or_introl eq_refl) X)]|]. apply IH; auto. intros x X. apply D. right. exact X.
Qed.
Lemma index_in_spec : forall vs v n, NoDup vs -> (index_in vs v = Some n <-> nth_error vs n = Some v).
Proof.
  induction vs as [|u vs IH]; intros v n N; cbn [index_in]; [destruct n; split; intros X; discriminate X|]. apply NoDup_cons_iff in N as [A B]. destruct (Z.eqb_spec v u) as [->|Ne].
  - split; [intros X; injection X as <-; reflexivity|]. destruct n as [|n]; [reflexivity|]. intros X. cbn in X. apply nth_error_In in X. contradiction.
  - destruct n as [|n]; cbn.
    + split; [destruct (index_in vs v); intros X; discriminate X|intros X; injection X as X; congruence].
    + rewrite <- IH by exact B. destruct (index_in vs v) as [m|]; split; intros X; try discriminate X; injection X as ->; reflexivity.
Qed.
Lemma index_in_total : forall vs v, In v vs -> exists n, index_in vs v = Some n.
Proof. induction vs as [|u vs IH]; intros v H; [destruct H|]. destruct H as [->|H]; cbn; [rewrite Z.eqb_refl; eauto|]. destruct (v =? u); eauto. destruct (IH _ H) as [n ->]. eauto. Qed.
(** value of a row of the r1cs under a vector of wire values *)
Fixpoint reval (x : nat -> F) (l : list (nat * F)) : F := match l with [] => f0 | (n, c) :: r => fadd (fmul c (x n)) (reval x r) end.
Definition row_sat (x : nat -> F) (r : row) : Prop := match r with (a, b, c) => fmul (reval x a) (reval x b) = reval x c end.
Definition nrel (vs : list var) (t : var * F) (u : nat * F) : Prop := snd t = snd u /\ nth_error vs (fst u) = Some (fst t).
Lemma number_total : forall vs l, NoDup vs -> incl (lc_vars l) vs -> exists t, number vs l = Some t /\ Forall2 (nrel vs) l t.
Proof.
  intros vs l N. induction l as [|[v c] l IH]; intros H; [exists []; split; [reflexivity|constructor]|]. destruct IH as [t [E R]]; [intros x X; apply H; right; exact X|]. destruct (index_in_total vs v (H v (or_introl eq_refl))) as [n En].
  exists ((n, c) :: t). unfold number in *. cbn [map opt_list fst snd]. rewrite En, E. split; [reflexivity|]. constructor; [|exact R]. split; [reflexivity|]. cbn. apply index_in_spec; auto.
Qed.
Lemma reval_ok : forall vs (x : nat -> F) (w : env) l t, (forall n v, nth_error vs n = Some v -> x n = w v) -> Forall2 (nrel vs) l t -> reval x t = eval_lin w l.
Proof. intros vs x w l t H R. induction R as [|[v c] [n c'] l t [A B] R IH]; cbn [reval eval_lin]; [reflexivity|]. cbn in A, B. subst c'. rewrite IH, (H _ _ B). reflexivity. Qed.
Lemma r1cs_ok : forall p, block_free p -> NoDup (vone :: map pid (pargs p)) -> Forall inner (map pid (pargs p)) ->
  exists rows, r1cs_program p = Some (wires p, length (public_part p), rows) /\
  forall (x : nat -> F) (w : env), (forall n v, nth_error (wires p) n = Some v -> x n = w v) -> (Forall (row_sat x) rows <-> sat w (flat_stmts (pstmts p))).
Proof.
  intros p [ss Ep] N Hi. unfold r1cs_program. rewrite (provide_public p N Hi). pose proof (wires_nodup p N Hi) as Nw. rewrite Ep.
  assert (V : exists vss, opt_list (map r1cs_vars (map Single ss)) = Some vss /\ forall x, In x (concat vss) <-> In x (constraint_vars ss)).
  { clear. induction ss as [|s ss [vss [E H]]]; [exists []; split; [reflexivity|intros x; cbn; tauto]|]. destruct s as [q l e|outs sv ins|fm es]; cbn [map opt_list r1cs_vars]; rewrite E; eexists; (split; [reflexivity|]); intros x; cbn [concat constraint_vars flat_map]; rewrite !in_app_iff, H; unfold q_vars; rewrite ?in_app_iff; cbn [In]; tauto. }
  destruct V as [vss [Ev Hv]]. rewrite Ev.
  assert (Ew : fold_left provide (set_of (concat vss)) (public_part p) = wires p).
  { rewrite provide_all; [|apply public_part_nodup; auto|apply sorted_nodup, set_of_spec]. unfold wires. rewrite Ep, flat_singles. rewrite (set_of_ext _ _ Hv). reflexivity. }
  cbn zeta. rewrite Ew. assert (Sub : incl (constraint_vars ss) (wires p)).
  { intros v X. unfold wires. rewrite Ep, flat_singles. apply in_or_app. destruct (mem v (public_part p)) eqn:M; [left; apply mem_In; exact M|right]. apply filter_In. rewrite M. split; [apply set_of_spec; exact X|reflexivity]. }
  assert (R : exists rows, opt_list (map (r1cs_row (wires p)) (map Single ss)) = Some rows /\ forall (x : nat -> F) (w : env), (forall n v, nth_error (wires p) n = Some v -> x n = w v) -> (Forall (row_sat x) (concat rows) <-> sat w ss)).
  { clear - Sub Nw. induction ss as [|s ss IH]; [exists []; split; [reflexivity|intros; cbn; split; constructor]|]. destruct IH as [rows [E H]]; [intros v X; apply Sub; unfold constraint_vars in *; cbn [flat_map]; apply in_or_app; right; exact X|].
    destruct s as [q l e|outs sv ins|fm es]; cbn [map opt_list r1cs_row].
    - assert (S1 : incl (lc_vars (qleft q)) (wires p) /\ incl (lc_vars (qright q)) (wires p) /\ incl (lc_vars l) (wires p)).
      { repeat split; intros v X; apply Sub; unfold constraint_vars, q_vars; cbn [flat_map]; rewrite !in_app_iff; tauto. }
      destruct S1 as [S1 [S2 S3]]. destruct (number_total _ _ Nw S1) as [a [-> A]]. destruct (number_total _ _ Nw S2) as [b [-> B]]. destruct (number_total _ _ Nw S3) as [c [-> C]]. rewrite E.
      exists ([(a, b, c)] :: rows). split; [reflexivity|]. intros x w Hx. cbn [concat app]. unfold sat. rewrite !Forall_cons_iff. specialize (H x w Hx). unfold sat in H. rewrite H. apply and_iff_compat_r. cbn [row_sat sat_stmt]. unfold eval_quad.
      rewrite (reval_ok _ x w _ _ Hx A), (reval_ok _ x w _ _ Hx B), (reval_ok _ x w _ _ Hx C). tauto.
    - rewrite E. exists ([] :: rows). split; [reflexivity|]. intros x w Hx. cbn [concat app]. unfold sat. rewrite Forall_cons_iff. specialize (H x w Hx). unfold sat in H. rewrite H. cbn. tauto.
    - rewrite E. exists ([] :: rows). split; [reflexivity|]. intros x w Hx. cbn [concat app]. unfold sat. rewrite Forall_cons_iff. specialize (H x w Hx). unfold sat in H. rewrite H. cbn. tauto. }
  destruct R as [rows [E H]]. rewrite E. exists (concat rows). split; [reflexivity|]. rewrite flat_singles. exact H.
Qed.

(** ** The witness file *)
Lemma take_ok : forall vs w, ssorted w -> NoDup vs -> (forall v, In v vs -> exists x, sget v w = Some x) ->
  exists t w', take vs w = Some (t, w') /\ ssorted w' /\ map fst t = vs /\ Forall (fun vx => sget (fst vx) w = Some (snd vx)) t /\ (forall v, In v vs -> sget v w' = None) /\ (forall v, ~ In v vs -> sget v w' = sget v w).
Proof.
  induction vs as [|v vs IH]; intros w Hw N H; cbn [take].
  - exists [], w. repeat split; auto. intros v [].
  - apply NoDup_cons_iff in N as [N1 N2]. destruct (H v (or_introl eq_refl)) as [x Hx]. rewrite Hx. destruct (IH (sdel v w)) as [t [w' [E [S1 [M [V [D K]]]]]]]; auto.
    + apply sdel_sorted. exact Hw.
    + intros u Hu. rewrite sget_sdel_ne by (intros ->; contradiction). apply H. right. exact Hu.
    + rewrite E. exists ((v, x) :: t), w'. split; [reflexivity|]. split; [exact S1|]. split; [cbn [map fst]; f_equal; exact M|]. split; [|split].
      * constructor; [exact Hx|]. rewrite Forall_forall in *. intros [u y] X. specialize (V _ X). cbn [fst snd] in *. rewrite sget_sdel_ne in V; [exact V|]. intros ->. apply N1. rewrite <- M. apply in_map_iff. exists (v, y). auto.
      * intros u [->|Hu]; [|apply D; exact Hu]. destruct (in_dec Z.eq_dec u vs) as [Y|Y]; [apply D; exact Y|]. rewrite K by exact Y. apply sget_sdel_eq. exact Hw.
      * intros u Hu. rewrite K by (intros X; apply Hu; right; exact X). apply sget_sdel_ne. intros ->. apply Hu. left. reflexivity.
Qed.
(** a witness for the program, as the interpreter produces it *)
Record witness_for (p : prog) (w : smap F) : Prop := {
  wf_sorted : ssorted w;
  wf_one : sget vone w = Some f1;
  wf_covers : covers w p;
  wf_outs : forall v, is_output v = true -> ((exists x, sget v w = Some x) <-> exists i, (i < pret p)%nat /\ v = vpub i) }.
Lemma entries_ok : forall p w, NoDup (vone :: map pid (pargs p)) -> Forall inner (map pid (pargs p)) -> sorted (public_inputs p) -> witness_for p w ->
  exists e, witness_entries (public_inputs p) w = Some e /\ Forall (fun vx => sget (fst vx) w = Some (snd vx)) e /\
    map fst e = public_part p ++ filter (fun v => negb (mem v (public_part p))) (map fst w).
Proof.
  intros p w N Hi Sp [Hw H1 Hc Ho]. unfold witness_entries. rewrite H1. set (w1 := sdel vone w). assert (S1 : ssorted w1) by (apply sdel_sorted; exact Hw).
  assert (G1 : forall v, v <> vone -> sget v w1 = sget v w) by (intros v Hv; apply sget_sdel_ne; exact Hv).
  assert (Ho1 : forall v, is_output v = true -> ((exists x, sget v w1 = Some x) <-> exists i, (i < pret p)%nat /\ v = vpub i)) by (intros v O; rewrite G1 by (intros ->; discriminate O); apply Ho; exact O).
  rewrite (outputs_count w1 (pret p) S1 Ho1). pose proof (public_part_nodup p N Hi) as P. unfold public_part in P. apply NoDup_cons_iff in P as [P1 P2].
  assert (Pa : NoDup (map vpub (seq 0 (pret p)))) by (apply FinFun.Injective_map_NoDup; [intros a b; apply vpub_inj|apply seq_NoDup]).
  destruct (take_ok (map vpub (seq 0 (pret p))) w1 S1 Pa) as [t2 [w2 [E2 [S2 [M2 [V2 [D2 K2]]]]]]].
  { intros v X. apply in_map_iff in X as [i [<- X]]. apply in_seq in X. apply Ho1; [apply vpub_is_output|]. exists i. split; [lia|reflexivity]. }
  rewrite E2. rewrite (sorted_set _ Sp). destruct (take_ok (public_inputs p) w2 S2 (sorted_nodup _ Sp)) as [t3 [w3 [E3 [S3 [M3 [V3 [D3 K3]]]]]]].
  { intros v X. unfold public_inputs in X. assert (X' : In v (map pid (pargs p))) by (apply in_map_iff in X as [a [<- X]]; apply filter_In in X; apply in_map; tauto).
    assert (Nv : v <> vone) by (intros ->; apply NoDup_cons_iff in N as [N _]; contradiction). rewrite K2.
    - rewrite G1 by exact Nv. apply Hc; [apply in_or_app; left; exact X'|exact Nv].
    - intros Y. apply in_map_iff in Y as [i [<- _]]. rewrite Forall_forall in Hi. exact (vpub_out i (Hi _ X')). }
  rewrite E3. eexists. split; [reflexivity|]. 
  assert (Q : forall v x, sget v w3 = Some x -> sget v w = Some x /\ ~ In v (public_part p)).
  { intros v x X. assert (Nv : v <> vone).
    { intros ->. assert (Y : sget vone w3 = sget vone w1). { rewrite K3, K2; [reflexivity| |]; intros Y; apply P1, in_or_app; auto. } rewrite X in Y. unfold w1 in Y. rewrite sget_sdel_eq in Y by exact Hw. discriminate Y. }
    assert (N3 : ~ In v (public_inputs p)) by (intros Y; rewrite (D3 v Y) in X; discriminate X). rewrite K3 in X by exact N3. assert (N2 : ~ In v (map vpub (seq 0 (pret p)))) by (intros Y; rewrite (D2 v Y) in X; discriminate X). rewrite K2, G1 in X by auto. split; [exact X|]. unfold public_part. intros [Y|Y]; [congruence|]. apply in_app_or in Y. tauto. }
  split.
  - constructor; [exact H1|]. apply Forall_app. split; [|apply Forall_app; split].
    + rewrite Forall_forall in *. intros [v x] X. specialize (V2 _ X). cbn in *. rewrite G1 in V2; auto. intros ->. apply P1, in_or_app. left. rewrite <- M2. apply in_map_iff. exists (vone, x). auto.
    + rewrite Forall_forall in *. intros [v x] X. specialize (V3 _ X). cbn in *. assert (Iv : In v (public_inputs p)) by (rewrite <- M3; apply in_map_iff; exists (v, x); auto).
      destruct (in_dec Z.eq_dec v (map vpub (seq 0 (pret p)))) as [Y|Y]; [rewrite (D2 v Y) in V3; discriminate V3|]. rewrite K2, G1 in V3; auto. intros ->. apply P1, in_or_app. right. exact Iv.
    + rewrite Forall_forall. intros [v x] X. cbn. apply Q. apply In_sget; auto.
  - cbn [map app fst]. rewrite !map_app, M2, M3. unfold public_part. cbn [app]. f_equal. rewrite <- app_assoc. do 2 f_equal.
    apply sorted_unique; [apply ssorted_keys; exact S3|apply sorted_filter, ssorted_keys; exact Hw|]. intros v. rewrite filter_In. split.
    + intros X. apply in_map_iff in X as [[u x] [<- X]]. apply In_sget in X; auto. destruct (Q _ _ X) as [Y1 Y2]. cbn [fst]. split.
      * clear - Y1. induction w as [|[k y] w IH]; cbn in Y1; [discriminate Y1|]. destruct (Z.eqb_spec u k) as [->|]; [left; reflexivity|right; auto].
      * fold (public_part p) in *. destruct (mem u (public_part p)) eqn:M; auto. apply mem_In in M. contradiction.
    + intros [X Y]. fold (public_part p) in Y. assert (Np : ~ In v (public_part p)) by (intros Z; apply mem_In in Z; rewrite Z in Y; discriminate Y). unfold public_part in Np. cbn [In] in Np. rewrite in_app_iff in Np.
      apply in_map_iff in X as [[u x] [<- X]]. cbn [fst] in *. apply In_sget in X; auto. assert (Z : sget u w3 = Some x) by (rewrite K3, K2, G1; [exact X|intros ->; apply Np; left; reflexivity|tauto|tauto]).
      clear - Z. induction w3 as [|[k y] l IH]; cbn in Z; [discriminate Z|]. destruct (Z.eqb_spec u k) as [->|]; [left; reflexivity|right; auto].
Qed.
End Proofs.

(** ** The public arguments of a compiled program have increasing numbers *)
Lemma and_iff_compat_r' : forall A B C : Prop, (C -> (A <-> B)) -> (A /\ C <-> B /\ C).
Proof. tauto. Qed.
Section Compiled.
Context {PF : PrimeField}.
Lemma params_sorted : forall ps s D prms s' em, WInv D [] s -> mapM use_param ps s = Some (prms, s', em) -> sorted (map pid prms).
Proof.
  induction ps as [|p ps IH]; intros s D prms s' em W E; cbn [mapM] in E; [injection E as <- <- <-; constructor|].
  unfold bind, ret in E. destruct (use_param p s) as [[[q s1] o1]|] eqn:E1; [|discriminate E]. destruct (mapM use_param ps s1) as [[[qs s2] o2]|] eqn:E2; [|discriminate E]. injection E as <- <- <-.
  destruct (wf_param _ _ _ _ _ _ W E1) as [Hq [D1 [F1 [W1 L1]]]]. destruct (wf_params _ _ _ _ _ _ W1 E2) as [_ [_ [_ [Hn HR]]]]. cbn [map]. constructor; [eapply IH; eauto|]. rewrite Forall_forall. intros v Hv. specialize (HR v Hv). rewrite Hq. unfold vnew in *. lia.
Qed.
Lemma compile_sorted : forall p c, compile p = Some c -> sorted (public_inputs c).
Proof.
  intros p c H. destruct (compile_inv _ _ H) as [prms [em [out [E [_ ->]]]]]. unfold public_inputs. cbn [pargs]. unfold codegen, codegen_m in E.
  match type of E with (match ?m with _ => _ end) = _ => destruct m as [[[x s] o]|] eqn:Er; [|discriminate E] end. injection E as <- <-. unfold bind, ret in Er.
  destruct (mapM use_param (zargs p) init_st) as [[[qs s1] o1]|] eqn:E1; [|discriminate Er]. destruct (flat_stmts_z (zbody p) s1) as [[[t s2] o2]|] eqn:E2; [|discriminate Er]. injection Er as <- <- <-.
  assert (W0 : WInv [vone] [] init_st). { split; cbn; auto; [|constructor|discriminate|contradiction]. intros v [[<-|[]]|[]]. unfold vone, vnew. cbn. lia. }
  pose proof (params_sorted _ _ _ _ _ _ W0 E1) as Sp. clear - Sp. induction qs as [|q qs IH]; cbn; [constructor|]. cbn in Sp. inversion Sp as [|? ? A B]; subst. destruct (negb (pprivate q)); [|apply IH; exact A]. cbn. constructor; [apply IH; exact A|].
  rewrite Forall_forall in *. intros v Hv. apply B. apply in_map_iff in Hv as [a [<- Hv]]. apply filter_In in Hv. apply in_map. tauto.
Qed.
End Compiled.

(** ** C35 *)
(** The r1cs means the constraints of the program: wire n stands for the n-th of [wires p]. *)
Theorem C35_r1cs_meaning : forall (PF : PrimeField) p, block_free p -> NoDup (vone :: map pid (pargs p)) -> Forall inner (map pid (pargs p)) ->
  exists rows, r1cs_program p = Some (wires p, length (public_part p), rows) /\ NoDup (wires p) /\
  forall (x : nat -> F) (w : env), (forall n v, nth_error (wires p) n = Some v -> x n = w v) -> (Forall (row_sat x) rows <-> sat w (flat_stmts (pstmts p))).
Proof. intros PF p B N Hi. destruct (r1cs_ok p B N Hi) as [rows [E H]]. exists rows. split; [exact E|]. split; [apply wires_nodup; auto|exact H]. Qed.
(** The witness file: each entry is the value of a variable; the public part is numbered as in the r1cs. *)
Theorem C35_public_part : forall (PF : PrimeField) p (w : smap F), NoDup (vone :: map pid (pargs p)) -> Forall inner (map pid (pargs p)) -> sorted (public_inputs p) -> witness_for p w ->
  exists e, witness_entries (public_inputs p) w = Some e /\ Forall (fun vx => sget (fst vx) w = Some (snd vx)) e /\
    forall n, (n < length (public_part p))%nat -> nth_error (map fst e) n = nth_error (wires p) n.
Proof.
  intros PF p w N Hi Sp W. destruct (entries_ok p w N Hi Sp W) as [e [E [V M]]]. exists e. split; [exact E|]. split; [exact V|]. intros n Hn. rewrite M. unfold wires. rewrite !nth_error_app1 by exact Hn. reflexivity.
Qed.
(** All wires are numbered alike iff every other variable of the witness occurs in a constraint. *)
Theorem C35_agreement_iff : forall (PF : PrimeField) p (w : smap F) e, NoDup (vone :: map pid (pargs p)) -> Forall inner (map pid (pargs p)) -> sorted (public_inputs p) -> witness_for p w ->
  witness_entries (public_inputs p) w = Some e ->
  (map fst e = wires p <-> forall v x, sget v w = Some x -> In v (public_part p) \/ In v (constraint_vars (flat_stmts (pstmts p)))).
Proof.
  intros PF p w e N Hi Sp W E. destruct (entries_ok p w N Hi Sp W) as [e' [E' [_ M]]]. rewrite E in E'. injection E' as <-. rewrite M. unfold wires.
  assert (Kin : forall v x, sget v w = Some x -> In v (map fst w)). { intros v x. clear. induction w as [|[k y] w IH]; cbn; intros X; [discriminate X|]. destruct (Z.eqb_spec v k) as [->|]; [left; reflexivity|right; auto]. }
  split.
  - intros X v x Hx. apply app_inv_head in X. destruct (mem v (public_part p)) eqn:Mv; [left; apply mem_In; exact Mv|right]. apply set_of_spec. assert (Y : In v (filter (fun v => negb (mem v (public_part p))) (map fst w))) by (apply filter_In; rewrite Mv; split; [eapply Kin; eauto|reflexivity]).
    rewrite X in Y. apply filter_In in Y. tauto.
  - intros X. f_equal. destruct W as [Hw H1 Hc Ho]. apply sorted_unique; [apply sorted_filter, ssorted_keys; exact Hw|apply sorted_filter, set_of_spec|]. intros v. rewrite !filter_In. apply and_iff_compat_r'.
    intros Y. assert (Np : ~ In v (public_part p)) by (intros Z; apply mem_In in Z; rewrite Z in Y; discriminate Y). rewrite (proj2 (set_of_spec _) v). split.
    + intros Z. apply in_map_iff in Z as [[u x] [<- Z]]. apply In_sget in Z; auto. destruct (X _ _ Z); [contradiction|assumption].
    + intros Z. destruct (Hc v) as [x Hx]; [apply in_or_app; right; exact Z|intros ->; apply Np; left; reflexivity|eapply Kin; eauto].
Qed.
(** For a compiled program run by the interpreter. *)
Theorem C35_compiled_partial : forall (PF : PrimeField) ext p c (inputs : list F) w log, ends_return p -> compile p = Some c ->
  exec_prog (exec_solver ext) (pargs c) (flat_stmts (pstmts c)) inputs = Done w log ->
  exists rows e, r1cs_program c = Some (wires c, length (public_part c), rows) /\ witness_entries (public_inputs c) w = Some e /\
    (forall n, (n < length (public_part c))%nat -> nth_error (map fst e) n = nth_error (wires c) n) /\
    ((forall v x, sget v w = Some x -> In v (public_part c) \/ In v (constraint_vars (flat_stmts (pstmts c)))) ->
     map fst e = wires c /\ Forall (row_sat (fun n => nth n (map snd e) f0)) rows).
Proof.
  intros PF ext p c inputs w log Hr H E. destruct (compile_tags _ _ Hr H) as [T Hi]. destruct (compile_def_before_use _ _ Hr H) as [Hd [N [_ Ep]]]. pose proof (compile_sorted _ _ H) as Sp.
  destruct (compile_inv _ _ H) as [prms [em [ss [_ [_ Ec]]]]]. subst c. cbn [pargs pstmts pret] in Hd, N, Hi, T, E. rewrite flat_singles in Hd, T, E.
  destruct (run_facts (exec_solver ext) prms (zret p) ss inputs w log (exec_solver_arity ext) Hd N Hi T E) as [F1 [F2 [F3 [F4 F5]]]]. set (c := mkProg prms (zret p) (map Single ss)) in *.
  assert (W : witness_for c w) by (constructor; auto). assert (B : block_free c) by (exists ss; reflexivity).
  destruct (C35_r1cs_meaning PF c B N Hi) as [rows [R1 [_ R2]]]. destruct (entries_ok c w N Hi Sp W) as [e [E1 [V _]]]. destruct (C35_public_part PF c w N Hi Sp W) as [e' [E2 [_ P]]]. rewrite E1 in E2. injection E2 as <-.
  exists rows, e. split; [exact R1|]. split; [exact E1|]. split; [exact P|]. intros X. apply (C35_agreement_iff PF c w e N Hi Sp W E1) in X. split; [exact X|]. apply (R2 _ (env_of w)).
  - intros n v Hn. rewrite <- X, nth_error_map in Hn. rewrite Forall_forall in V. destruct (nth_error e n) as [[u y]|] eqn:En; [|discriminate Hn]. injection Hn as Hn. cbn in Hn. subst u. specialize (V _ (nth_error_In _ _ En)). cbn in V. unfold env_of. rewrite V.
    apply nth_error_nth. rewrite nth_error_map, En. reflexivity.
  - cbn [c pstmts]. rewrite flat_singles. exact F4.
Qed.
Print Assumptions C35_compiled_partial.

(** REFUTED in general: def main(private field a, private field b) -> field { log("{}", a); return b * b; } compiles, the check for
    unconstrained private inputs accepts it, and wire 2 is b in the r1cs and a in the witness file: the exported witness of a correct run
    does not satisfy the exported constraints. *)
Definition lp : @zprog pf97 := mkZProg [mkZParam 1 PF_ true; mkZParam 2 PF_ true] [ZLog 0 [ZId KF 1]; ZReturn [ZFBin FMul (ZId KF 2) (ZId KF 2)]] 1.
Definition lp_run : option (list var * list var * list Z * list (list (nat * Z) * list (nat * Z) * list (nat * Z)) * bool) :=
  match compile lp with
  | Some c => match exec_prog (exec_solver (fun _ _ => None)) (pargs c) (flat_stmts (pstmts c)) [of_Z 5; of_Z 3] with
              | Done w _ => match r1cs_program c, witness_entries (public_inputs c) w with
                            | Some (vs, _, rows), Some e => Some (vs, map fst e, map (fun t => fval (snd t)) e,
                                map (fun r => match r with (a, b, d) => (map (fun t => (fst t, fval (snd t))) a, map (fun t => (fst t, fval (snd t))) b, map (fun t => (fst t, fval (snd t))) d) end) rows,
                                match check_prog c with inl _ => true | inr _ => false end)
                            | _, _ => None
                            end
              | _ => None
              end
  | None => None
  end.
Lemma lp_run_eq : lp_run = Some ([vone; vpub 0; 2], [vone; vpub 0; 1; 2], [1; 9; 5; 3], [([(2%nat, 1)], [(2%nat, 1)], [(1%nat, 1)])], true).
Proof. vm_compute. reflexivity. Qed.
Theorem C35_agreement_refuted : exists (PF : PrimeField) p c (inputs : list F) w log vs k rows e, ends_return p /\ compile p = Some c /\ check_prog c = inl tt /\
  exec_prog (exec_solver (fun _ _ => None)) (pargs c) (flat_stmts (pstmts c)) inputs = Done w log /\
  r1cs_program c = Some (vs, k, rows) /\ witness_entries (public_inputs c) w = Some e /\
  nth_error vs 2 <> nth_error (map fst e) 2 /\ ~ Forall (row_sat (fun n => nth n (map snd e) f0)) rows.
Proof.
  pose proof lp_run_eq as H. unfold lp_run in H. destruct (compile lp) as [c|] eqn:Ec; [|discriminate H]. destruct (exec_prog _ _ _ _) as [w log| | | |] eqn:Ex in H; try discriminate H.
  destruct (r1cs_program c) as [[[vs k] rows]|] eqn:Er; [|discriminate H]. destruct (witness_entries (public_inputs c) w) as [e|] eqn:Ew; [|discriminate H]. destruct (check_prog c) as [[]|] eqn:Ek; [|discriminate H]. injection H as H1 H2 H3 H4.
  exists pf97, lp, c, [of_Z 5; of_Z 3], w, log, vs, k, rows, e. split; [exists [ZLog 0 [ZId KF 1]], [ZFBin FMul (ZId KF 2) (ZId KF 2)]; split; [reflexivity|]; split; [reflexivity|repeat constructor]|].
  split; [exact Ec|]. split; [exact Ek|]. split; [exact Ex|]. split; [exact Er|]. split; [exact Ew|]. split; [rewrite H1, H2; cbn; intros X; discriminate X|].
  destruct e as [|[v0 x0] [|[v1 x1] [|[v2 x2] [|[v3 x3] [|]]]]]; try discriminate H3. cbn [map snd] in H3. injection H3 as X0 X1 X2 X3.
  destruct rows as [|[[a b] d] [|]]; try discriminate H4. cbn [map] in H4. injection H4 as Y1 Y2 Y3.
  destruct a as [|[na ca] [|]]; try discriminate Y1. destruct b as [|[nb cb] [|]]; try discriminate Y2. destruct d as [|[nd cd] [|]]; try discriminate Y3. cbn in Y1, Y2, Y3. injection Y1 as -> Ya. injection Y2 as -> Yb. injection Y3 as -> Yd.
  intros F. inversion F as [|? ? K _]; subst. cbn [row_sat reval nth map snd] in K. apply (f_equal fval) in K. cbn in K. rewrite Ya, Yb, Yd, X1, X2 in K. vm_compute in K. discriminate K.
Qed.
Print Assumptions C35_agreement_refuted.
