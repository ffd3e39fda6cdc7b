(** Proofs about Writes.v: runs of the flattened assignments. *)
From Coq Require Import String Ascii.
From Coq Require Import ZArith NArith List Bool Lia Permutation.
From Verif Require Import PField Interp Bits Zir CgProg UintOpt Str Abi Typed Flatten FlattenOps FlattenSim FlattenRun Writes Redefine WritesVal WritesExp WritesChoose.
Import ListNotations.
Open Scope Z_scope.

Section WritesRun.
Context {PF : PrimeField}.

(** ** An expression that does not read x is typed without x *)
Definition butx (x : Z) (S S1 : tctx) : Prop := forall y t, S y = Some t -> y = x \/ S1 y = Some t.
Lemma butx_upd : forall x S S1 y t, butx x S S1 -> butx x (cupd S y t) (cupd S1 y t).
Proof. intros x S S1 y t H z u E. unfold cupd in *. destruct (z =? y); [right; exact E|apply H; exact E]. Qed.
Lemma narrow : forall x, (forall S e t, tty S e t -> forall S1, butx x S S1 -> ~ In x (tids e) -> tty S1 e t) /\ (forall S es ts, ttys S es ts -> forall S1, butx x S S1 -> ~ In x (tidss es) -> ttys S1 es ts) /\
  (forall S s S', tsty S s S' -> forall S1, butx x S S1 -> ~ In x (sids s) -> exists S1', tsty S1 s S1' /\ butx x S' S1') /\ (forall S ss S', tstys S ss S' -> forall S1, butx x S S1 -> ~ In x (sidss ss) -> exists S1', tstys S1 ss S1' /\ butx x S' S1').
Proof.
  intros x. apply typed_ind.
  - intros S t y E S1 B N. apply YId. destruct (B y t E) as [->|H]; [destruct N; left; reflexivity|exact H].
  - intros S op args ts t _ IH Y S1 B N. eapply YOp; [apply (IH S1 B N)|exact Y].
  - intros S c a b t _ I1 _ I2 _ I3 S1 B N. cbn [tids] in N. apply YCond; [apply I1|apply I2|apply I3]; try exact B; intros J; apply N; apply in_or_app; [left; exact J|right; apply in_or_app; left; exact J|right; apply in_or_app; right; exact J].
  - intros S S' ss e t _ I1 _ I2 S1 B N. change (tids (TBlock ss e)) with (sidss ss ++ tids e) in N. destruct (I1 S1 B) as [S2 [A C]]; [intros J; apply N; apply in_or_app; left; exact J|]. eapply YBlock; [exact A|apply I2; [exact C|intros J; apply N; apply in_or_app; right; exact J]].
  - intros S S1 _ _. apply YNil.
  - intros S e r t ts _ I1 _ I2 S1 B N. change (tidss (e :: r)) with (tids e ++ tidss r) in N. apply YCons; [apply I1|apply I2]; try exact B; intros J; apply N; apply in_or_app; auto.
  - intros S y t e G _ IH S1 B N. exists (cupd S1 y t). split; [apply YDef; [exact G|apply IH; [exact B|exact N]]|apply butx_upd; exact B].
  - intros S e err _ IH S1 B N. exists S1. split; [apply YAssert; apply IH; [exact B|exact N]|exact B].
  - intros S y t em args ts _ IH Y S1 B N. exists (cupd S1 y t). split; [eapply YEmb; [apply IH; [exact B|exact N]|exact Y]|apply butx_upd; exact B].
  - intros S fmt args ts _ IH S1 B N. exists S1. split; [eapply YLog; apply IH; [exact B|exact N]|exact B].
  - intros S S1 B N. exists S1. split; [apply YSnil|exact B].
  - intros S S1 S2 s r _ I1 _ I2 T B N. change (sidss (s :: r)) with (sids s ++ sidss r) in N. destruct (I1 T B) as [T1 [A C]]; [intros J; apply N; apply in_or_app; left; exact J|]. destruct (I2 T1 C) as [T2 [D E]]; [intros J; apply N; apply in_or_app; right; exact J|]. exists T2. split; [eapply YScons; eassumption|exact E].
Qed.
Definition drop (x : Z) (S : tctx) : tctx := fun y => if y =? x then None else S y.
Lemma butx_drop : forall x S, butx x S (drop x S).
Proof. intros x S y t E. unfold drop. destruct (Z.eqb_spec y x) as [H|_]; [left; exact H|right; exact E]. Qed.

(** ** Lists of statements *)
Lemma redef_ws_app : forall a b n, redef_ws n (a ++ b) = let '(n1, x) := redef_ws n a in let '(n2, y) := redef_ws n1 b in (n2, x ++ y).
Proof.
  induction a as [|s a IH]; intros b n; cbn [app redef_ws]; [destruct (redef_ws n b); reflexivity|]. destruct (redef_w n s) as [n1 x]. rewrite IH. destruct (redef_ws n1 a) as [n2 y]. destruct (redef_ws n2 b) as [n3 z]. rewrite app_assoc. reflexivity.
Qed.
Lemma redef_ws_WS : forall ss n, redef_ws n (map WS ss) = let '(n1, l) := redef_stmts n ss in (n1, map WS l).
Proof.
  induction ss as [|s ss IH]; intros n; [reflexivity|]. cbn [map redef_ws redef_w]. rewrite u_redef_stmts. destruct (redef_stmt n s) as [n1 a]. rewrite IH. destruct (redef_stmts n1 ss) as [n2 b]. rewrite map_app. reflexivity.
Qed.
Lemma wflat_app : forall a b zs, wflat_stmts (a ++ b) = Some zs -> exists x y, wflat_stmts a = Some x /\ wflat_stmts b = Some y /\ zs = x ++ y.
Proof.
  induction a as [|s a IH]; intros b zs H; cbn [app wflat_stmts] in *; [exists [], zs; auto|]. destruct (wflat_stmt s) as [u|]; [|discriminate H]. destruct (wflat_stmts (a ++ b)) as [w|] eqn:E; [|discriminate H]. injection H as <-. destruct (IH b w E) as [x [y [A [B ->]]]]. rewrite A. exists (u ++ x), y. rewrite app_assoc. auto.
Qed.
Lemma wflat_WS : forall ss, wflat_stmts (map WS ss) = tflat_stmts ss.
Proof. induction ss as [|s ss IH]; [reflexivity|]. cbn [map wflat_stmts wflat_stmt]. rewrite IH. reflexivity. Qed.
Lemma wdefss_app : forall a b, wdefss (a ++ b) = wdefss a ++ wdefss b.
Proof. intros. apply flat_map_app. Qed.
Lemma wdefss_WS : forall ss, wdefss (map WS ss) = sdefss ss.
Proof. induction ss as [|s ss IH]; [reflexivity|]. cbn [map]. unfold wdefss in *. cbn [flat_map wdefs]. rewrite IH. reflexivity. Qed.
Lemma wdefss_cons : forall s r, wdefss (s :: r) = wdefs s ++ wdefss r.
Proof. reflexivity. Qed.
Lemma const_redef : forall p n, const_path p = true -> redef_path n p = (n, [], p).
Proof.
  induction p as [|[i|m|k] p IH]; intros n H; cbn [const_path] in H; [reflexivity| | |]; cbn [redef_path].
  - apply andb_prop in H as [H1 H2]. apply is_ulit_inv in H1 as [w [k ->]]. cbn [redef redef_list]. rewrite (IH n H2). reflexivity.
  - rewrite (IH n H). reflexivity.
  - rewrite (IH n H). reflexivity.
Qed.
Lemma const_defs : forall p, const_path p = true -> pdefs p = [].
Proof. induction p as [|[i|m|k] p IH]; intros H; cbn [const_path] in H; [reflexivity| | |]; cbn [pdefs]; [apply andb_prop in H as [H1 H2]; apply is_ulit_inv in H1 as [w [k ->]]; exact (IH H2)|exact (IH H)|exact (IH H)]. Qed.

(** ** Assigning the components one after the other *)
Definition held (zr : env_s) (p : sid * lty) (u : val) : Prop := zr (name (fst p)) = Some u.
Lemma cons_shift : forall A (a b : list A) x, a ++ x :: b = (a ++ [x]) ++ b.
Proof. intros. rewrite <- app_assoc. reflexivity. Qed.
Lemma seq_defs : forall ids0 zs0 ws0 zr r l, NoDup (map fst ids0) ->
  (forall pi pz pw id z w ri rz rw zrc, ids0 = pi ++ id :: ri -> zs0 = pz ++ z :: rz -> ws0 = pw ++ w :: rw -> length pz = length pi -> length pw = length pi ->
     (forall s, ~ In s (map fst pi) -> zrc (name s) = zr (name s)) -> Forall2 (held zrc) pi pw -> sem zrc z = Some w) ->
  forall ids zs ws pi pz pw zrc, ids0 = pi ++ ids -> zs0 = pz ++ zs -> ws0 = pw ++ ws -> length pz = length pi -> length pw = length pi -> length zs = length ids -> length ws = length ids ->
     (forall s, ~ In s (map fst pi) -> zrc (name s) = zr (name s)) -> Forall2 (held zrc) pi pw ->
  exists zr', sem_stmts (mkOuts zrc r l) (defs_zip ids zs) = Some (mkOuts zr' r l) /\ (forall s, ~ In s (map fst ids0) -> zr' (name s) = zr (name s)) /\ Forall2 (held zr') ids0 ws0.
Proof.
  intros ids0 zs0 ws0 zr r l ND H. induction ids as [|id ids IH]; intros zs ws pi pz pw zrc E1 E2 E3 L1 L2 L3 L4 Ag Ho.
  - destruct zs; [|discriminate L3]. destruct ws; [|discriminate L4]. rewrite app_nil_r in E1, E3. subst pi pw. exists zrc. split; [reflexivity|]. split; [exact Ag|exact Ho].
  - destruct zs as [|z zs]; [discriminate L3|]. destruct ws as [|w ws]; [discriminate L4|]. cbn [length] in L3, L4. injection L3 as L3. injection L4 as L4. pose proof (H _ _ _ _ _ _ _ _ _ zrc E1 E2 E3 L1 L2 Ag Ho) as Sz.
    assert (Nid : ~ In (fst id) (map fst pi)) by (rewrite E1, map_app in ND; apply nodup_app_inv in ND as [_ [_ D]]; intros I; apply (D _ I); left; reflexivity).
    assert (Oth : forall s, s <> fst id -> upd_s zrc (name (fst id)) w (name s) = zrc (name s)) by (intros s D; unfold upd_s; destruct (name s =? name (fst id)) eqn:En; [apply Z.eqb_eq, name_inj in En; contradiction|reflexivity]).
    destruct (IH zs ws (pi ++ [id]) (pz ++ [z]) (pw ++ [w]) (upd_s zrc (name (fst id)) w)) as [zr' [Q1 [Q2 Q3]]]; try (rewrite <- cons_shift; assumption); try (rewrite !app_length; cbn [length]; lia); try assumption.
    + intros s N. rewrite map_app in N. cbn [map] in N. rewrite Oth; [apply Ag; intros I; apply N; apply in_or_app; left; exact I|]. intros ->. apply N. apply in_or_app. right. left. reflexivity.
    + apply Forall2_app; [|constructor; [unfold held, upd_s; rewrite Z.eqb_refl; reflexivity|constructor]]. assert (Q : forall l, ~ In (fst id) (map fst l) -> forall m, Forall2 (held zrc) l m -> Forall2 (held (upd_s zrc (name (fst id)) w)) l m).
      { intros l0 N m F. induction F as [|p u l0 m F1 F IHF]; [constructor|]. cbn [map] in N. constructor; [unfold held; rewrite Oth; [exact F1|intros X; apply N; left; exact X]|apply IHF; intros I; apply N; right; exact I]. }
      apply Q; assumption.
    + exists zr'. split; [|split; assumption]. cbn [defs_zip combine map fst snd sem_stmts sem_stmt os_env os_ret os_log]. rewrite Sz. exact Q1.
Qed.

(** ** The state after an assignment to a part *)
Lemma held_ext : forall zr zr' l m, (forall p, In p l -> zr' (name (fst p)) = zr (name (fst p))) -> Forall2 (held zr) l m -> Forall2 (held zr') l m.
Proof. intros zr zr' l m H F. induction F as [|p u l m F1 F IH]; [constructor|]. constructor; [unfold held; rewrite (H p (or_introl eq_refl)); exact F1|apply IH; intros q Q; apply H; right; exact Q]. Qed.
Lemma f2_cut : forall A B (R : A -> B -> Prop) a b c x y z, Forall2 R (a ++ b ++ c) (x ++ y ++ z) -> length a = length x -> length b = length y -> Forall2 R a x /\ Forall2 R b y /\ Forall2 R c z.
Proof.
  intros A B R a b c x y z F L1 L2. apply f2_split in F as [x' [yz [E [F1 F2]]]]. apply app_eq_len in E as [-> E]; [|rewrite <- (f2_len _ _ _ _ _ F1), L1; reflexivity]. apply f2_split in F2 as [y' [z' [E2 [F2 F3]]]]. rewrite E2 in E. apply app_eq_len in E as [-> ->]; [auto|]. rewrite <- (f2_len _ _ _ _ _ F2), L2. reflexivity.
Qed.
Lemma assign_ok : forall S rho zr zr' x t p te v v' new ids, rel S rho zr -> S x = Some t -> good_ty t -> rho x = Some v -> const_path p = true -> step_ty t (csteps p) te -> put (csteps p) new v = Some v' -> has_type new te ->
  assignees t p (flat_ids (SBase x) t) = Some ids -> (forall s, ~ In s (map fst ids) -> zr' (name s) = zr (name s)) -> Forall2 (held zr') ids (flat_val new) -> rel S (tupd rho x v') zr'.
Proof.
  intros S rho zr zr' x t p te v v' new ids R Sx G Ev Cp Sty Pu Tn As Ag Ho. destruct (R x t Sx) as [v0 [E0 [Tv Hv]]]. rewrite Ev in E0. injection E0 as <-. pose proof (put_inb _ _ _ Sty _ _ _ Tv Pu) as Ib. destruct (put_flat _ _ _ Sty v Tv Ib) as [a [old [c [F1 [F2 [F3 F4]]]]]]. destruct (F4 new Tn) as [v1 [P1 [P2 P3]]]. rewrite Pu in P1. injection P1 as <-.
  destruct (assignees_ok _ _ _ Sty p _ _ Cp eq_refl (ids_length _ _) As) as [ia [ic [I1 [I2 I3]]]]. pose proof (ids_nodup t (SBase x) G) as ND. unfold holds in Hv. rewrite F1, I1 in Hv. change (Forall2 (held zr) (ia ++ ids ++ ic) (a ++ old ++ c)) in Hv. apply f2_cut in Hv as [H1 [H2 H3]]; [|congruence|congruence].
  rewrite I1, !map_app in ND. apply nodup_app_inv in ND as [_ [ND1 ND2]]. apply nodup_app_inv in ND1 as [_ [_ ND3]].
  assert (Bs : forall q, In q ids -> base (fst q) = x) by (intros [s l] Q; apply (ids_base t (SBase x) s l); rewrite I1; apply in_or_app; right; apply in_or_app; left; exact Q).
  intros y u Ey. unfold tupd. destruct (Z.eqb_spec y x) as [->|D].
  - rewrite Sx in Ey. injection Ey as <-. exists v'. split; [reflexivity|]. split; [exact P2|]. unfold holds. rewrite I1, P3. change (Forall2 (held zr') (ia ++ ids ++ ic) (a ++ flat_val new ++ c)). apply Forall2_app; [|apply Forall2_app; [exact Ho|]].
    + apply (held_ext zr); [|exact H1]. intros q Q. apply Ag. intros I. apply (ND2 (fst q)); [apply in_map; exact Q|apply in_or_app; left; exact I].
    + apply (held_ext zr); [|exact H3]. intros q Q. apply Ag. intros I. apply (ND3 (fst q) I). apply in_map. exact Q.
  - destruct (R y u Ey) as [w [W1 [W2 W3]]]. exists w. split; [exact W1|]. split; [exact W2|]. apply (holds_agree zr); [exact W3|]. intros s Hs. apply Ag. intros I. apply in_map_iff in I as [q [<- Q]]. apply D. rewrite <- Hs. apply Bs. exact Q.
Qed.

(** ** A statement *)
Definition runs_w (n n' : nat) (S S' : tctx) (ds : list Z) (ex : tenv -> outcome (list entry * tenv)) (l : list wstmt) : Prop :=
  (n <= n')%nat /\ nnS S' /\ (forall y, cnt y (wdefss l) = cnt y ds + cnt y (cids n n'))%nat /\
  forall S1 zs, xtn S S1 -> cfree n S1 -> fresh S1 (wdefss l) -> wflat_stmts l = Some zs -> exists S2, xtn S' S2 /\ cfree n' S2 /\ (forall y, S2 y <> None -> S1 y <> None \/ In y (wdefss l)) /\
    forall rho lg rho' rho1 zr r lz, ex rho = Ok (lg, rho') -> same rho1 rho -> rel S1 rho1 zr ->
      exists zr' rho2 lg2, sem_stmts (mkOuts zr r lz) zs = Some (mkOuts zr' r (lz ++ map zentry lg2)) /\ (forall y, ecnt y lg2 = ecnt y lg) /\ same rho2 rho' /\ rel S2 rho2 zr'.
Lemma okenv_rel : forall S S1 rho rho1 zr, nnS S -> xtn S S1 -> same rho1 rho -> rel S1 rho1 zr -> okenv S rho.
Proof. intros S S1 rho rho1 zr NS X Sa R y t E. destruct (R y t (X y t E)) as [v [V1 [V2 _]]]. exists v. rewrite <- (Sa y) by (apply NS; congruence). auto. Qed.
Lemma runs_plain : forall ss S S', tstys S ss S' -> nnS S -> nnl (sdefss ss) -> forall n n' l, redef_stmts n ss = (n', l) -> runs_w n n' S S' (sdefss ss) (fun rho => texecs rho ss) (map WS l).
Proof.
  intros ss S S' T NS ND n n' l H. destruct (proj2 (proj2 (proj2 redefine_ok)) _ _ _ T NS ND _ _ _ H) as [L [NS' [Ty [O V]]]]. split; [exact L|]. split; [exact NS'|]. rewrite wdefss_WS, wflat_WS. split; [exact O|]. intros S1 zs X C Fr Fl. destruct (Ty S1 X C) as [S2 [A1 [A2 A3]]]. exists S2. split; [exact A2|]. split; [exact A3|]. split; [exact (dom_tstys _ _ _ A1)|].
  intros rho lg rho' rho1 zr r lz Ev Sa R. destruct (V _ _ _ Ev _ Sa) as [lb [rho2 [X1 [X2 X3]]]]. pose proof (proj2 (proj2 (proj2 flatten_runs)) _ _ _ A1 zs rho1 zr r lz Fl Fr R) as Q. rewrite X1 in Q. destruct Q as [zr' [Q1 [_ Q3]]]. exists zr', rho2, lb. auto.
Qed.
(** the definitions of the conditions of e, then the statements of e *)
Definition pre_flat (b : list tstmt) (e' : texp) : option (list zstmt * list zexp) := match tflat_stmts b, tflat e' with Some x, Some (ss, zs) => Some (x ++ ss, zs) | _, _ => None end.
Lemma runs_expr : forall S e t, tty S e t -> nnS S -> nnl (tdefs e) -> forall n n' b e', redef n e = (n', b, e') -> (n <= n')%nat /\ (forall y, cnt y (sdefss b ++ tdefs e') = cnt y (tdefs e) + cnt y (cids n n'))%nat /\
  forall S1 ss zs, xtn S S1 -> cfree n S1 -> fresh S1 (sdefss b ++ tdefs e') -> pre_flat b e' = Some (ss, zs) -> exists S2, xtn S1 S2 /\ cfree n' S2 /\ (forall y, S2 y <> None -> S1 y <> None \/ In y (sdefss b)) /\
    forall rho lg v rho1 zr r lz, teval rho e = Ok (lg, v) -> same rho1 rho -> rel S1 rho1 zr ->
      exists zr' rho2 lg2, sem_stmts (mkOuts zr r lz) ss = Some (mkOuts zr' r (lz ++ map zentry lg2)) /\ (forall y, ecnt y lg2 = ecnt y lg) /\ (forall y, ~ In y (cids n n') -> rho2 y = rho1 y) /\ rel S2 rho2 zr' /\ touch (sdefss b ++ tdefs e') zr zr' /\ has_type v t /\
        forall zr2, agree S2 (tdefs e') zr' zr2 -> rps zr2 zs v.
Proof.
  intros S e t T NS ND n n' b e' H. destruct (proj1 redefine_ok _ _ _ T NS ND _ _ _ _ H) as [L [Ty [O V]]]. split; [exact L|]. split; [intros y; rewrite cnt_app; apply O|]. intros S1 ss zs X C Fr Fl. destruct (Ty S1 X C) as [S2 [A1 [A2 [A3 A4]]]]. exists S2. split; [exact A2|]. split; [exact A3|]. pose proof (dom_tstys _ _ _ A1) as Dm. split; [exact Dm|].
  intros rho lg v rho1 zr r lz Ev Sa R. destruct (V _ _ _ Ev _ Sa) as [lb [rho2 [X1 [X2 X3]]]]. unfold pre_flat in Fl. destruct (tflat_stmts b) as [xb|] eqn:Fb; [|discriminate Fl]. destruct (tflat e') as [[s1 z1]|] eqn:Fe; [|discriminate Fl]. injection Fl as <- <-.
  destruct (fresh_app _ _ _ Fr) as [Fr1 _]. pose proof (fresh_next _ _ _ _ Fr Dm) as Fr2. pose proof (proj2 (proj2 (proj2 flatten_runs)) _ _ _ A1 xb rho1 zr r lz Fb Fr1 R) as Q. rewrite X1 in Q. destruct Q as [zr1 [Q1 [Q2 Q3]]].
  destruct (X3 rho2) as [le [E1 E2]]; [apply (same_trans _ rho1); [apply (same_out n n'); exact X2|exact Sa]|reflexivity|]. pose proof (proj1 flatten_runs _ _ _ A4 s1 z1 rho2 zr1 r (lz ++ map zentry lb) Fe Fr2 Q3) as P. rewrite E1 in P. destruct P as [Tv [zr2 [P1 [P2 P3]]]].
  exists zr2, rho2, (lb ++ le). split; [rewrite sem_stmts_app, Q1, P1, map_app, app_assoc; reflexivity|]. split; [intros y; rewrite ecnt_app; apply E2|]. split; [exact X2|]. split; [apply (rel_touch _ _ zr1 _ (tdefs e')); assumption|]. split; [apply (touch_app _ _ _ zr1); assumption|]. split; [exact Tv|exact P3].
Qed.

(** ** Composition *)
Lemma runs_app : forall n n1 n2 S S1 S2 d1 d2 ex1 ex2 l1 l2, runs_w n n1 S S1 d1 ex1 l1 -> runs_w n1 n2 S1 S2 d2 ex2 l2 ->
  runs_w n n2 S S2 (d1 ++ d2) (fun rho => obnd (ex1 rho) (fun a => obnd (ex2 (snd a)) (fun b => Ok (fst a ++ fst b, snd b)))) (l1 ++ l2).
Proof.
  intros n n1 n2 S S1 S2 d1 d2 ex1 ex2 l1 l2 [L1 [N1 [C1 R1]]] [L2 [N2 [C2 R2]]]. split; [lia|]. split; [exact N2|]. split; [intros y; rewrite wdefss_app, !cnt_app, C1, C2, (cids_split n n1 n2), cnt_app by lia; lia|].
  intros T zs X C Fr Fl. rewrite wdefss_app in Fr. apply wflat_app in Fl as [za [zb [Fa [Fb ->]]]]. destruct (fresh_app _ _ _ Fr) as [Fr1 _]. destruct (R1 T za X C Fr1 Fa) as [T1 [X1 [K1 [D1 E1]]]]. pose proof (fresh_next _ _ _ _ Fr D1) as Fr2. destruct (R2 T1 zb X1 K1 Fr2 Fb) as [T2 [X2 [K2 [D2 E2]]]].
  exists T2. split; [exact X2|]. split; [exact K2|]. split. { intros y Y. rewrite wdefss_app. destruct (D2 y Y) as [H|H]; [|right; apply in_or_app; right; exact H]. destruct (D1 y H) as [H1|H1]; [left; exact H1|right; apply in_or_app; left; exact H1]. }
  intros rho lg rho' rho1 zr r lz Ev Sa R. apply ok_inv in Ev as [[la ra] [Ea Ev]]. apply ok_inv in Ev as [[lb rb] [Eb Ev]]. cbn [fst snd] in *. injection Ev as <- <-. destruct (E1 _ _ _ _ _ r lz Ea Sa R) as [zr1 [ro1 [g1 [P1 [P2 [P3 P4]]]]]]. destruct (E2 _ _ _ _ _ r (lz ++ map zentry g1) Eb P3 P4) as [zr2 [ro2 [g2 [Q1 [Q2 [Q3 Q4]]]]]].
  exists zr2, ro2, (g1 ++ g2). split; [rewrite sem_stmts_app, P1, Q1, map_app, app_assoc; reflexivity|]. split; [intros y; rewrite !ecnt_app, P2, Q2; reflexivity|]. split; assumption.
Qed.
Lemma runs_weaken : forall n n' S S' d d' ex ex' l, nnS S -> (forall y, cnt y d = cnt y d') -> (forall rho lg rho', okenv S rho -> ex' rho = Ok (lg, rho') -> ex rho = Ok (lg, rho')) -> runs_w n n' S S' d ex l -> runs_w n n' S S' d' ex' l.
Proof.
  intros n n' S S' d d' ex ex' l NS Hd He [L [N [C R]]]. split; [exact L|]. split; [exact N|]. split; [intros y; rewrite <- Hd; apply C|]. intros S1 zs X K Fr Fl. destruct (R S1 zs X K Fr Fl) as [S2 [A1 [A2 [A3 A4]]]]. exists S2. split; [exact A1|]. split; [exact A2|]. split; [exact A3|].
  intros rho lg rho' rho1 zr r lz Ev Sa Rl. apply (A4 rho lg rho' rho1 zr r lz); [|exact Sa|exact Rl]. apply He; [exact (okenv_rel _ _ _ _ _ NS X Sa Rl)|exact Ev].
Qed.

(** ** Assignment to a part at a constant position *)
Lemma path_part : forall (S : tctx) t p te, path_ty S t p te -> part_ty t p = Some te.
Proof.
  induction 1 as [t|ty n i r t Hn Ti H IH|ms m tm r t sa sb -> N H IH|ts k tk r t E H IH]; cbn [part_ty]; [destruct t; reflexivity|exact IH| |rewrite E; exact IH].
  change (find (fun q : string * cty => (fst q =? m)%string) (sa ++ (m, tm) :: sb)) with (tmem m (sa ++ (m, tm) :: sb)). rewrite (tmem_at _ _ _ _ N). exact IH.
Qed.
Lemma scalar_count : forall t, scalar t = true -> prim_count t = 1%nat.
Proof. intros [] H; try discriminate H; reflexivity. Qed.
Lemma u_wset : forall x t p e zs, wflat_stmts [WSet x t p e] = Some zs -> exists ids ss ze, assignees t p (flat_ids (SBase x) t) = Some ids /\ tflat e = Some (ss, ze) /\ length ids = length ze /\ zs = ss ++ defs_zip ids ze.
Proof.
  intros x t p e zs H. cbn [wflat_stmts wflat_stmt] in H. destruct (assignees t p (flat_ids (SBase x) t)) as [ids|]; [|discriminate H]. destruct (tflat e) as [[ss ze]|]; [|discriminate H]. destruct (length ids =? length ze)%nat eqn:L; [|discriminate H]. injection H as <-. rewrite app_nil_r. exists ids, ss, ze. apply Nat.eqb_eq in L. auto.
Qed.
Theorem const_write : forall S x t p e te n n' b e', S x = Some t -> good_ty t -> path_ty S t p te -> tty S e te -> nnS S -> nnl (tdefs e) -> const_path p = true -> apart x t p e = true -> redef n e = (n', b, e') ->
  runs_w n n' S S (tdefs e) (fun rho => wexec rho (WSet x t p e)) (map WS b ++ [WSet x t p e']).
Proof.
  intros S x t p e te n n' b e' Sx G Pt Te NS ND Cp Ap Re. assert (Nx : 0 <= x) by (apply NS; congruence). assert (De : wdefss (map WS b ++ [WSet x t p e']) = sdefss b ++ tdefs e') by (rewrite wdefss_app, wdefss_WS, wdefss_cons; cbn [wdefs]; rewrite (const_defs p Cp); cbn [app]; change (wdefss []) with (@nil Z); rewrite app_nil_r; reflexivity).
  unfold runs_w. rewrite De. destruct (runs_expr S e te Te NS ND _ _ _ _ Re) as [L [Cn Run]]. split; [exact L|]. split; [exact NS|]. split; [exact Cn|].
  intros S1 zs X C Fr Fl. apply wflat_app in Fl as [xb [xs [Fb [Fs ->]]]]. rewrite wflat_WS in Fb. apply u_wset in Fs as [ids [ss [ze [As [Fe [Li ->]]]]]]. assert (Pf : pre_flat b e' = Some (xb ++ ss, ze)) by (unfold pre_flat; rewrite Fb, Fe; reflexivity). pose proof (path_part _ _ _ _ Pt) as Pp.
  assert (Main : exists S2, xtn S S2 /\ cfree n' S2 /\ (forall y, S2 y <> None -> S1 y <> None \/ In y (sdefss b ++ tdefs e')) /\
    forall rho lg v rho1 zr r lz, teval rho e = Ok (lg, v) -> same rho1 rho -> rel S1 rho1 zr ->
      exists zr' rho2 lg2, sem_stmts (mkOuts zr r lz) (xb ++ ss) = Some (mkOuts zr' r (lz ++ map zentry lg2)) /\ (forall y, ecnt y lg2 = ecnt y lg) /\ (forall y, ~ In y (cids n n') -> rho2 y = rho1 y) /\ rel S2 rho2 zr' /\ has_type v te /\
        forall zr2, (forall s, base s <> x -> zr2 (name s) = zr' (name s)) -> (scalar te = true -> forall s, zr2 (name s) = zr' (name s)) -> rps zr2 ze v).
  { unfold apart in Ap. rewrite Pp in Ap. destruct (scalar te) eqn:Sc.
    - destruct (Run S1 _ _ X C Fr Pf) as [S2 [A1 [A2 [A3 A4]]]]. exists S2. split; [exact (xtn_trans _ _ _ X A1)|]. split; [exact A2|]. split; [intros y Y; destruct (A3 y Y) as [H|H]; [left; exact H|right; apply in_or_app; left; exact H]|].
      intros rho lg v rho1 zr r lz Ev Sa R. destruct (A4 _ _ _ _ _ r lz Ev Sa R) as [zr' [rho2 [lg2 [B1 [B2 [B3 [B4 [_ [B5 B6]]]]]]]]]. exists zr', rho2, lg2. split; [exact B1|]. split; [exact B2|]. split; [exact B3|]. split; [exact B4|]. split; [exact B5|]. intros zr2 _ H. apply B6. intros s _. apply H. reflexivity.
    - rewrite orb_false_r in Ap. apply negb_true_iff in Ap. apply reads_false in Ap. pose proof (proj1 (narrow x) _ _ _ Te (drop x S) (butx_drop x S) Ap) as Td.
      assert (Nd : nnS (drop x S)) by (intros y Y; apply NS; unfold drop in Y; destruct (y =? x); [contradiction Y; reflexivity|exact Y]). destruct (runs_expr _ e te Td Nd ND _ _ _ _ Re) as [_ [_ Rd]].
      assert (Sx1 : S1 x = Some t) by (apply X; exact Sx). assert (xD : ~ In x (sdefss b ++ tdefs e')) by (intros I; destruct Fr as [_ F]; rewrite (F x I) in Sx1; discriminate Sx1).
      destruct (Rd (drop x S1) (xb ++ ss) ze) as [S2 [A1 [A2 [A3 A4]]]]; [intros y u Y; unfold drop in *; destruct (y =? x); [discriminate Y|apply X; exact Y]|intros k K; unfold drop; destruct (cid k =? x); [reflexivity|apply C; exact K]|destruct Fr as [F1 F2]; split; [exact F1|intros y Y; unfold drop; destruct (y =? x); [reflexivity|apply F2; exact Y]]|exact Pf|].
      exists (cupd S2 x t). split; [|split; [apply cfree_upd; assumption|split]].
      + intros y u Y. unfold cupd. destruct (Z.eqb_spec y x) as [Exy|D]; [rewrite Exy in Y; congruence|]. apply A1. unfold drop. destruct (Z.eqb_spec y x) as [H|_]; [contradiction|]. apply X. exact Y.
      + intros y Y. unfold cupd in Y. destruct (Z.eqb_spec y x) as [Exy|D]; [left; rewrite Exy; congruence|]. destruct (A3 y Y) as [H|H]; [left; unfold drop in H; destruct (y =? x); [contradiction H; reflexivity|exact H]|right; apply in_or_app; left; exact H].
      + intros rho lg v rho1 zr r lz Ev Sa R. assert (Rx : rel (drop x S1) rho1 zr) by (intros y u Y; apply R; unfold drop in Y; destruct (y =? x); [discriminate Y|exact Y]). destruct (A4 _ _ _ _ _ r lz Ev Sa Rx) as [zr' [rho2 [lg2 [B1 [B2 [B3 [B4 [B5 [B6 B7]]]]]]]]]. exists zr', rho2, lg2. split; [exact B1|]. split; [exact B2|]. split; [exact B3|]. split; [|split; [exact B6|]].
        * intros y u Y. unfold cupd in Y. destruct (Z.eqb_spec y x) as [->|D]; [|apply B4; exact Y]. injection Y as <-. destruct (R x t Sx1) as [v0 [V1 [V2 V3]]]. exists v0. split; [rewrite B3 by (apply not_cids; exact Nx); exact V1|]. split; [exact V2|]. apply (holds_agree zr); [exact V3|]. intros s Hs. apply B5. rewrite Hs. exact xD.
        * intros zr2 H _. apply B7. intros s Hs. apply H. intros Ex. rewrite Ex in Hs. destruct Hs as [Hs|Hs]; [|apply xD; apply in_or_app; right; exact Hs]. destruct (A3 x Hs) as [H1|H1]; [unfold drop in H1; rewrite Z.eqb_refl in H1; contradiction H1; reflexivity|apply xD; apply in_or_app; left; exact H1]. }
  destruct Main as [S2 [A1 [A2 [A3 A4]]]]. exists S2. split; [exact A1|]. split; [exact A2|]. split; [exact A3|].
  intros rho lg rho' rho1 zr r lz Ev Sa R. cbn [wexec] in Ev. rewrite (csteps_ok p rho Cp) in Ev. cbn [obnd fst snd] in Ev. apply ok_inv in Ev as [[le v] [Ee Ev]]. cbn [fst snd] in Ev. destruct (rho x) as [old|] eqn:Ex; [|discriminate Ev]. cbn [of_opt obnd] in Ev. destruct (put (csteps p) v old) as [new|] eqn:Pu; [|discriminate Ev]. cbn [of_put obnd] in Ev. injection Ev as <- <-.
  destruct (A4 _ _ _ _ _ r lz Ee Sa R) as [zr1 [rho2 [lg2 [B1 [B2 [B3 [B4 [B5 B6]]]]]]]]. pose proof (path_steps _ _ _ _ Pt rho _ _ (csteps_ok p rho Cp)) as Sty. destruct (assignees_ok _ _ _ Sty p _ _ Cp eq_refl (ids_length _ _) As) as [ia [ic [I1 [I2 I3]]]].
  assert (ND1 : NoDup (map fst ids)) by (pose proof (ids_nodup t (SBase x) G) as N0; rewrite I1, !map_app in N0; apply nodup_app_inv in N0 as [_ [N1 _]]; apply nodup_app_inv in N1 as [N1 _]; exact N1).
  assert (Bs : forall q, In q ids -> base (fst q) = x) by (intros [s l] Q; apply (ids_base t (SBase x) s l); rewrite I1; apply in_or_app; right; apply in_or_app; left; exact Q).
  assert (Lv : length (flat_val v) = length ids) by (rewrite I3; apply flat_val_length; exact B5).
  destruct (seq_defs ids ze (flat_val v) zr1 r (lz ++ map zentry lg2) ND1) with (ids := ids) (zs := ze) (ws := flat_val v) (pi := @nil (sid * lty)) (pz := @nil zexp) (pw := @nil val) (zrc := zr1) as [zr' [Q1 [Q2 Q3]]]; try reflexivity; try (symmetry; exact Li); try exact Lv; try constructor.
  - intros pi pz pw id z w ri rz rw zrc E1 E2 E3 L1 L2 Ag Ho. assert (Rz : rps zrc ze v).
    { apply B6; [intros s Hs; apply Ag; intros I; apply Hs; apply in_map_iff in I as [q [<- Q]]; apply Bs; rewrite E1; apply in_or_app; left; exact Q|]. intros Sc s. apply Ag. apply scalar_count in Sc. rewrite Sc, E1, app_length in I3. cbn [length] in I3. destruct pi; [intros []|cbn [length] in I3; lia]. }
    unfold rps in Rz. rewrite E2, E3 in Rz. apply f2_split in Rz as [x1 [x2 [Eq [F1 F2]]]]. apply app_eq_len in Eq as [-> Eq]; [|rewrite <- (f2_len _ _ _ _ _ F1); congruence]. subst x2. inversion F2 as [|? ? ? ? [Sz _] _]; subst. exact Sz.
  - exists zr', (tupd rho2 x new), lg2. split; [rewrite app_assoc, sem_stmts_app, B1; exact Q1|]. split; [exact B2|]. split; [apply same_upd; apply (same_trans _ rho1); [apply (same_out n n'); exact B3|exact Sa]|].
    apply (assign_ok S2 rho2 zr1 zr' x t p te old new v ids); try assumption; [apply A1; exact Sx|]. rewrite B3 by (apply not_cids; exact Nx). rewrite (Sa x Nx). exact Ex.
Qed.
End WritesRun.
