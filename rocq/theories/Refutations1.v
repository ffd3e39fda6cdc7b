(** Concrete programs over the field of 97 elements: non-vacuity examples and counterexamples for the IR. *)
From Coq Require Import ZArith List Bool Lia Sorted.
From Verif Require Import PField SMap IR IRSpec Wf IRProofs Interp InterpProofs Optimizer OptimizerProofs OptPipeline OptExtra Concrete.
Import ListNotations.
Open Scope Z_scope.
Local Existing Instance pf97.

Definition k (z : Z) : F := of_Z z.
Definition t (c : Z) (v : var) : var * F := (v, of_Z c).
Definition no_ext : Z -> list F -> option (list F) := fun _ _ => None.
Definition slv : solver -> list F -> option (list F) := exec_solver no_ext.

(** is x = 0 ?   (x + 5)^2 ?  returned as ~out_0 and ~out_1; variables x = 1. *)
Definition ex_args : list param := [mkParam 1 true].
Definition ex_prog : list stmt :=
  [ Directive [2; 3] SConditionEq [q_of_lc [t 1 1]];
    Constraint (mkQ [t 1 1] [t 1 3]) [t 1 2] None;
    Constraint (mkQ [t 1 0; t 96 2] [t 1 1]) [] None;
    Constraint (q_of_lc [t 1 1; t 5 0]) [t 1 4] None;
    Constraint (mkQ [t 1 4] [t 1 4]) [t 1 5] None;
    Log 7 [[t 1 5]];
    Directive [6; 7] SConditionEq [q_of_lc [t 1 1]];
    Constraint (mkQ [t 1 1] [t 1 7]) [t 1 6] None;
    Constraint (q_of_lc [t 1 0; t 96 2]) [(vpub 0, f1)] None;
    Constraint (q_of_lc [t 1 5]) [(vpub 1, f1)] None ].

Definition show (o : outcome) : option (list (Z * Z) * list (Z * list Z)) :=
  match o with
  | Done w log => Some (map (fun kv => (fst kv, fval (snd kv))) w, map (fun e => (fst e, map fval (snd e))) log)
  | _ => None
  end.
Definition show_outs (o : outcome) : option (list Z) :=
  match show o with Some (w, _) => Some (map snd (filter (fun kv => fst kv <? 0) w)) | None => None end.

(** a hash without collisions on the statements of the example: position in the list *)
Definition stmt_eqb (a b : stmt) : bool :=
  match a, b with
  | Constraint q l _, Constraint q' l' _ => q_eqb q q' && lc_eqb l l'
  | Directive o s i, Directive o' s' i' => list_eqb Z.eqb o o' && solver_eqb s s' && list_eqb q_eqb i i'
  | Log f e, Log f' e' => (f =? f') && list_eqb lc_eqb e e'
  | _, _ => false
  end.
Fixpoint index_of (l : list stmt) (s : stmt) : Z :=
  match l with
  | [] => 0
  | x :: r => if stmt_eqb s x then 0 else 1 + index_of r s
  end.

Lemma stmt_eqb_strip : forall a b, stmt_eqb a b = true -> strip a = strip b.
Proof.
  intros [q l e|o s i|f es] [q' l' e'|o' s' i'|f' es'] H; simpl in H; try discriminate.
  - apply andb_prop in H. destruct H as [H1 H2]. apply q_eqb_eq in H1. apply lc_eqb_eq in H2. subst; auto.
  - apply andb_prop in H. destruct H as [H H3]. apply andb_prop in H. destruct H as [H1 H2].
    apply list_eqb_eq in H1; [|intros; apply Z.eqb_eq; auto]. apply solver_eqb_eq in H2.
    apply list_eqb_eq in H3; [|apply q_eqb_eq]. subst; auto.
  - apply andb_prop in H. destruct H as [H1 H2]. apply Z.eqb_eq in H1. apply list_eqb_eq in H2; [|apply lc_eqb_eq]. subst; auto.
Qed.

Lemma index_of_inj : forall l a b, In a l -> In b l -> index_of l a = index_of l b -> 
  exists x, stmt_eqb a x = true /\ stmt_eqb b x = true.
Proof.
  intros l. assert (Hpos : forall l s, 0 <= index_of l s) by (induction l0; cbn [index_of]; intros; [lia|]; destruct (stmt_eqb _ _); [lia|]; specialize (IHl0 s); lia).
  assert (Hrefl : forall A (eqb : A -> A -> bool), (forall x, eqb x x = true) -> forall l, list_eqb eqb l l = true).
  { intros A eqb Hr. induction l0; simpl; auto. rewrite Hr, IHl0; auto. }
  assert (Hlc : forall l : lincomb, lc_eqb l l = true).
  { intros l0. apply Hrefl. intros [v c]; simpl. rewrite Z.eqb_refl, Feqb_refl; auto. }
  assert (Hq : forall q, q_eqb q q = true) by (intros [x y]; unfold q_eqb; simpl; rewrite !Hlc; auto).
  assert (Hs : forall s, solver_eqb s s = true) by (intros []; simpl; rewrite ?Nat.eqb_refl, ?Z.eqb_refl; auto).
  assert (Hst : forall s, stmt_eqb s s = true).
  { intros []; simpl; rewrite ?Hq, ?Hlc, ?Hs, ?Z.eqb_refl, ?(Hrefl _ _ Z.eqb_refl), ?(Hrefl _ _ Hq), ?(Hrefl _ _ Hlc); auto. }
  induction l as [|x r IH]; intros a b Ha Hb H; [destruct Ha|]. cbn [index_of In] in *.
  pose proof (Hpos r a). pose proof (Hpos r b).
  destruct (stmt_eqb a x) eqn:Ea; destruct (stmt_eqb b x) eqn:Eb; try lia.
  - eauto.
  - destruct Ha as [->|Ha]; [rewrite Hst in Ea; discriminate|]. destruct Hb as [->|Hb]; [rewrite Hst in Eb; discriminate|].
    apply IH; auto. lia.
Qed.
Lemma index_of_nc : forall l a b, In a l -> In b l -> index_of l a = index_of l b -> strip a = strip b.
Proof.
  intros l a b Ha Hb H. destruct (index_of_inj l a b Ha Hb H) as [x [H1 H2]].
  rewrite (stmt_eqb_strip _ _ H1), (stmt_eqb_strip _ _ H2). auto.
Qed.

Example ex_dbu : def_before_use ex_args ex_prog = true.
Proof. reflexivity. Qed.
Example ex_run : show_outs (exec_prog slv ex_args ex_prog [k 3]) = Some [64; 0].
Proof. vm_compute. reflexivity. Qed.

Definition ex_opt4 := optimize_4 slv ex_args 2 ex_prog.
Definition ex_hash : stmt -> Z := index_of (match ex_opt4 with Some l => l | None => [] end).
Definition ex_opt := optimize_flat slv ex_hash ex_args 2 ex_prog.
Example ex_opt_shorter : match ex_opt with Some l => length l | None => 0%nat end = 7%nat.
Proof. vm_compute. reflexivity. Qed.

(** ** C08: assembly blocks.  y = 1 and z = 2 are arguments; asm { a <-- ...; a*a === y; z === a }.
    The last constraint becomes a substitution a := z, the directive is removed, but the constraint emitted
    before still mentions a, which is now free. *)
Definition asm_args : list param := [mkParam 1 false; mkParam 2 false].
Definition asm_prog : prog := mkProg asm_args 0
  [Block [ Directive [3] SDiv [q_of_lc [t 1 2]; q_of_lc [t 1 0]];
           Constraint (mkQ [t 1 3] [t 1 3]) [t 1 1] None;
           Constraint (q_of_lc [t 1 2]) [t 1 3] None ]].
Definition asm_opt : option prog := optimize slv (index_of []) asm_prog.

Definition env2 (a : list (Z * Z)) : env := fun v => of_Z (match aget v a with Some z => z | None => 0 end).
Definition asm_bad : env := env2 [(0, 1); (1, 4); (2, 5); (3, 2)].

Lemma asm_refuted : exists (p p' : prog) (w : env),
  def_before_use (pargs p) (flat_stmts (pstmts p)) = true /\
  (forall a b, In a (flat_stmts (pstmts p)) -> In b (flat_stmts (pstmts p)) ->
     index_of (flat_stmts (pstmts p)) a = index_of (flat_stmts (pstmts p)) b -> strip a = strip b) /\
  optimize slv (index_of (flat_stmts (pstmts p))) p = Some p' /\ satisfies w p' /\
  (forall w0, satisfies w0 p -> exists v, interface (pargs p) (pret p) v /\ w0 v <> w v) /\
  exists inputs : list F,
    (exists w1 log, exec_prog slv (pargs p) (clean (pstmts p)) inputs = Done w1 log) /\
    exec_prog slv (pargs p') (clean (pstmts p')) inputs = Panic.
Proof.
  exists asm_prog. 
  destruct (optimize slv (index_of (flat_stmts (pstmts asm_prog))) asm_prog) as [p'|] eqn:E; [|vm_compute in E; discriminate].
  exists p', asm_bad. split; [reflexivity|]. split; [apply index_of_nc|]. split; [reflexivity|].
  assert (Es : match pstmts p' with [Single (Constraint q l None)] => (q_eqb q (mkQ [t 1 3] [t 1 3]) && lc_eqb l [t 1 1])%bool = true | _ => False end /\ pargs p' = asm_args /\ pret p' = 0%nat).
  { revert E. vm_compute. intros E; inversion E; subst. repeat split. }
  destruct p' as [pa pr ps]; simpl in Es. destruct Es as [Es [-> ->]].
  destruct ps as [|[[q l [|]| |]|] [|]]; try contradiction.
  apply andb_prop in Es. destruct Es as [Eq El]. apply q_eqb_eq in Eq. apply lc_eqb_eq in El. subst q l.
  split; [|split].
  - split; [vm_compute; apply F_ext; reflexivity|]. constructor; [|constructor]. cbn [sat_stmt].
    apply F_ext. vm_compute. reflexivity.
  - intros w0 [H1 Hs]. 
    destruct (Feq_dec (w0 1) (asm_bad 1)) as [Ey|Ne]; [|exists 1; split; [right; left; simpl; auto|auto]].
    destruct (Feq_dec (w0 2) (asm_bad 2)) as [Ez|Ne]; [|exists 2; split; [right; left; simpl; auto|auto]].
    exfalso. simpl in Hs. inversion Hs as [|? ? _ Hs1]; subst. inversion Hs1 as [|? ? H2 Hs2]; subst.
    inversion Hs2 as [|? ? H3 _]; subst. clear Hs Hs1 Hs2.
    unfold sat_stmt, eval_quad in *. cbn [qleft qright eval_lin t q_of_lc lc_one lc_summand fst snd] in *. 
    rewrite Ey in H2. rewrite H1, Ez in H3.
    assert (E3 : w0 3 = of_Z 5).
    { transitivity (fadd (fmul (of_Z 1) (w0 3)) f0); [|rewrite <- H3; apply F_ext; vm_compute; reflexivity].
      rewrite <- (of_Z_fval (w0 3)). apply F_ext. unfold fadd, fmul. 
      rewrite !of_Z_fval. change (of_Z 1) with f1. destruct (w0 3) as [v Hv]. simpl. 
      pose proof Hv as Hv'. revert Hv'. simpl. intros Hv'.
      assert (0 <= v < 97) by (pose proof (fval_range {| fval := v; fcan := Hv |}) as R; simpl in R; exact R).
      change (fval f0) with 0. rewrite ?Z.mul_1_l. idtac.
      change (v = ((1 mod 97 * v) mod 97 + 0) mod 97).
      change (1 mod 97) with 1. rewrite Z.mul_1_l, Z.add_0_r, Z.mod_mod, Z.mod_small by lia. auto. }
    rewrite E3 in H2. apply (f_equal fval) in H2. vm_compute in H2. discriminate.
  - exists [k 25; k 5]. split; [|vm_compute; reflexivity].
    destruct (exec_prog slv (pargs asm_prog) (clean (pstmts asm_prog)) [k 25; k 5]) eqn:Ex; eauto;
      exfalso; vm_compute in Ex; discriminate.
Qed.

(** ** C10: duplicate logs are dropped *)
Definition log_prog : prog := mkProg [mkParam 1 true] 0 [Single (Log 7 [[t 1 1]]); Single (Log 7 [[t 1 1]])].
Lemma dup_logs_refuted : exists (p p' : prog) (inputs : list F) w w' log log',
  optimize slv (index_of (flat_stmts (pstmts p))) p = Some p' /\
  exec_prog slv (pargs p) (clean (pstmts p)) inputs = Done w log /\
  exec_prog slv (pargs p') (clean (pstmts p')) inputs = Done w' log' /\ length log = 2%nat /\ length log' = 1%nat.
Proof.
  exists log_prog. eexists. exists [k 4]. do 4 eexists. 
  repeat split; vm_compute; reflexivity.
Qed.
