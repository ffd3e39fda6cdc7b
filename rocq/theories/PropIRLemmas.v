(** Glue: the lemmas in exactly the form of the property theorems of PropIR.v. *)
From Coq Require Import ZArith List Bool Lia Sorted Ring.
From Verif Require Import PField SMap IR IRSpec Wf IRProofs Interp InterpProofs Optimizer OptimizerProofs OptPipeline OptExtra Concrete Refutations1.
Import ListNotations.
Open Scope Z_scope.
Local Arguments Z.eqb : simpl never.

Section G.
Context (PF : PrimeField).
Add Ring Fr : F_ring_th.
Section S.
Variable solve : solver -> list F -> option (list F).

Lemma exec_satisfies : forall args ss (inputs : list F) w log,
  NoDup (vone :: map pid args) -> fresh_outs (vone :: map pid args) ss ->
  exec_prog solve args ss inputs = Done w log ->
  sget vone w = Some f1 /\ map (fun a => sget (pid a) w) args = map Some inputs /\
  sat (env_of w) ss /\ (forall s v, In s ss -> In v (stmt_vars s) -> exists x, sget v w = Some x).
Proof.
  intros args ss inputs w log Hnd Hf H. unfold exec_prog in H.
  destruct (Nat.eqb_spec (length args) (length inputs)) as [Hl|]; [|discriminate].
  destruct (init_witness_spec args inputs Hl Hnd) as [I1 [I2 I3]].
  destruct (exec_inv solve _ _ _ _ _ _ Hf I3 H) as [E1 [E2 [E3 E4]]].
  split; [auto|]. split; [|split; auto].
  - clear - I2 E1. revert I2 E1. generalize (init_witness args inputs). intros w0 I2 E1. revert inputs I2.
    induction args as [|a r IH]; intros [|x xs] I2; simpl in *; try discriminate; auto.
    injection I2 as H1 H2. f_equal; [apply (E1 _ _ H1)|apply IH; auto].
  - intros s v Hs Hv. rewrite Forall_forall in E4. apply (E4 s Hs v Hv).
Qed.
Lemma exec_no_count : forall ss w log e r, exec_stmts solve w log ss <> WrongInputCount e r.
Proof.
  induction ss as [|s rs IH]; intros w log e r; [discriminate|]. destruct s as [q l er|o s i|f es]; cbn [exec_stmts].
  - destruct (is_assignee w l); destruct (evaluate_quad w q); try discriminate; auto.
    destruct (evaluate_lin w l); try discriminate. destruct (Feqb _ _); [auto|discriminate].
  - destruct (opt_list _); [|discriminate]. destruct (solve s _); [|discriminate]. destruct (put_outputs _ _ _); [auto|discriminate].
  - destruct (opt_list _); [auto|discriminate].
Qed.
Lemma exec_count : forall args ss (inputs : list F) e r,
  exec_prog solve args ss inputs = WrongInputCount e r <->
  (length args <> length inputs /\ e = length args /\ r = length inputs).
Proof.
  intros args ss inputs e r. unfold exec_prog. destruct (Nat.eqb_spec (length args) (length inputs)) as [Hl|Hl].
  - split; [intros H; exfalso; eapply exec_no_count; eauto|tauto].
  - split; [intros H; inversion H; auto|intros [_ [-> ->]]; auto].
Qed.
Lemma exec_prog_unsat : forall args ss (inputs : list F) e,
  exec_prog solve args ss inputs = Unsatisfied e ->
  exists pre q l post w log, ss = pre ++ Constraint q l e :: post /\
    exec_prog solve args pre inputs = Done w log /\
    (forall v, In v (q_vars q ++ lc_vars l) -> exists x, sget v w = Some x) /\
    ~ sat_stmt (env_of w) (Constraint q l e).
Proof.
  unfold exec_prog. intros args ss inputs e H. destruct (Nat.eqb (length args) (length inputs)); [|discriminate].
  apply exec_unsat in H. exact H.
Qed.
Lemma intro_all_vars : forall ss D D1, intro_all D ss = Some D1 -> forall s, In s ss -> incl (stmt_vars s) D1.
Proof.
  induction ss as [|s r IH]; intros D D1 H s0 Hs; [destruct Hs|]. simpl in H.
  destruct (intro D s) as [Da|] eqn:E; [|discriminate]. destruct Hs as [->|Hs]; [|eauto].
  eapply incl_tran; [apply (intro_mono _ _ _ E)|eapply intro_all_incl; eauto].
Qed.
Lemma exec_prog_complete : forall args ss (inputs : list F) (w : env),
  def_before_use args ss = true -> NoDup (vone :: map pid args) -> length args = length inputs ->
  w vone = f1 -> map (fun a => w (pid a)) args = inputs -> sat w ss -> follows solve w ss ->
  exists w', exec_prog solve args ss inputs = Done w' (logs_of w ss) /\
    (forall v x, sget v w' = Some x -> x = w v) /\
    (forall s v, In s ss -> In v (stmt_vars s) -> sget v w' = Some (w v)).
Proof.
  intros args ss inputs w Hd Hnd Hl Hw Hin Hs Hf. unfold def_before_use in Hd.
  destruct (intro_all (vone :: map pid args) ss) as [D1|] eqn:Ei; [|discriminate].
  destruct (exec_of_assignment solve args ss inputs w D1 Ei Hnd Hl Hw Hin Hs Hf) as [w' [A1 [A2 A3]]].
  exists w'. split; auto. split; auto. intros s v Hs' Hv.
  destruct (proj1 (A3 v)) as [x Hx]; [eapply intro_all_vars; eauto|]. rewrite Hx. f_equal. apply A2; auto.
Qed.

Lemma redef_sound : forall args ret ss st out,
  def_before_use args ss = true ->
  run_pass (redef_step solve false) (redef_init args ret) ss = Some (st, out) ->
  forall w : env, w vone = f1 -> sat w out ->
  exists w0, w0 vone = f1 /\ sat w0 ss /\ (forall v, interface args ret v -> w0 v = w v).
Proof.
  intros args ret ss st out Hd Hr w Hw Hs. unfold def_before_use in Hd.
  destruct (intro_all (vone :: map pid args) ss) as [D1|] eqn:Ei; [|discriminate].
  destruct (redef_pass_ok solve _ _ _ _ _ _ Ei Hr) as [_ [A _]]. destruct (A w Hw Hs) as [w0 [B1 B2]].
  exists w0. split; [rewrite B2; auto; left; auto|auto].
Qed.
Lemma redef_complete : forall args ret ss st out,
  def_before_use args ss = true ->
  run_pass (redef_step solve false) (redef_init args ret) ss = Some (st, out) ->
  def_before_use args out = true /\
  forall w : env, w vone = f1 -> sat w ss -> follows solve w ss ->
  sat w out /\ follows solve w out /\ logs_of w out = logs_of w ss.
Proof.
  intros args ret ss st out Hd Hr. unfold def_before_use in *.
  destruct (intro_all (vone :: map pid args) ss) as [D1|] eqn:Ei; [|discriminate].
  destruct (redef_pass_ok solve _ _ _ _ _ _ Ei Hr) as [[K1 [E _]] [_ A]]. rewrite E. auto.
Qed.
Lemma directive_merge : forall args ss st out,
  def_before_use args ss = true -> run_pass dir_step dir_init ss = Some (st, out) ->
  def_before_use args out = true /\
  (forall w : env, w vone = f1 -> sat w out -> exists w0, sat w0 ss /\
     (forall v, v = vone \/ In v (map pid args) \/ is_output v = true -> w0 v = w v)) /\
  (forall w : env, w vone = f1 -> sat w ss -> follows solve w ss ->
     sat w out /\ follows solve w out /\ logs_of w out = logs_of w ss).
Proof.
  intros args ss st out Hd Hr. unfold def_before_use in *.
  destruct (intro_all (vone :: map pid args) ss) as [D1|] eqn:Ei; [|discriminate].
  destruct (dir_pass_ok solve _ _ _ _ _ (in_eq vone (map pid args)) Ei Hr) as [[K1 [E _]] [A B]]. rewrite E.
  split; [auto|]. split; [|auto]. intros w Hw Hs. destruct (A w Hw Hs) as [w0 [C1 C2]]. exists w0. split; auto.
  intros v Hv. apply C2. simpl. intuition.
Qed.
Lemma optimizer_sound : forall (hash : stmt -> Z) args ret ss s4 out,
  def_before_use args ss = true ->
  optimize_4 solve args ret ss = Some s4 ->
  (forall a b, In a s4 -> In b s4 -> hash a = hash b -> strip a = strip b) ->
  optimize_flat solve hash args ret ss = Some out ->
  forall w : env, w vone = f1 -> sat w out ->
  exists w0, w0 vone = f1 /\ sat w0 ss /\ (forall v, interface args ret v -> w0 v = w v).
Proof.
  intros hash args ret ss s4 out Hd H4 Hnc Ho w Hw Hs. unfold def_before_use in Hd.
  destruct (intro_all (vone :: map pid args) ss) as [D1|] eqn:Ei; [|discriminate].
  destruct (optimize_flat_ok solve hash _ _ _ _ _ _ Ei H4 Hnc Ho) as [_ [A _]].
  destruct (A w Hw Hs) as [w0 [B1 B2]]. exists w0. split; [rewrite B2; auto; left; auto|auto].
Qed.

Lemma run_bpass_single : forall {S} (bst : S -> bstmt -> option (S * list bstmt)) (step : S -> stmt -> option (S * list stmt)),
  (forall st s, bst st (Single s) = match step st s with Some (st', o) => Some (st', map Single o) | None => None end) ->
  forall ss st, run_bpass bst st (map Single ss) =
    match run_pass step st ss with Some (st', o) => Some (st', map Single o) | None => None end.
Proof.
  intros S bst step Hb. induction ss as [|s r IH]; intros st; simpl; auto.
  rewrite Hb. destruct (step st s) as [[st1 o1]|]; auto. rewrite IH.
  destruct (run_pass step st1 r) as [[st2 o2]|]; auto. rewrite map_app. auto.
Qed.
Lemma optimize_is_flat : forall (hash : stmt -> Z) args ret ss,
  optimize solve hash (mkProg args ret (map Single ss)) =
  match optimize_flat solve hash args ret ss with
  | Some out => Some (mkProg args ret (map Single out))
  | None => None
  end.
Proof.
  intros hash args ret ss. unfold optimize, optimize_flat, optimize_4. cbn [pargs pret pstmts].
  rewrite (run_bpass_single _ (redef_step solve false)) by reflexivity.
  destruct (run_pass (redef_step solve false) _ ss) as [[a1 s1]|]; auto.
  rewrite (run_bpass_single _ taut_step) by reflexivity. destruct (run_pass taut_step tt s1) as [[a2 s2]|]; auto.
  rewrite (run_bpass_single _ canon_pass_step) by reflexivity. destruct (run_pass canon_pass_step tt s2) as [[a3 s3]|]; auto.
  rewrite (run_bpass_single _ dir_step) by reflexivity. destruct (run_pass dir_step dir_init s3) as [[a4 s4]|]; auto.
  rewrite (run_bpass_single _ (dup_step hash)) by reflexivity. destruct (run_pass (dup_step hash) [] s4) as [[a5 s5]|]; auto.
Qed.
End S.

Lemma exec_builtin_no_panic : forall ext args ss (inputs : list F),
  NoDup (vone :: map pid args) -> def_before_use args ss = true ->
  exec_prog (exec_solver ext) args ss inputs <> Panic.
Proof. intros. apply exec_prog_no_panic; auto. apply exec_solver_arity. Qed.

Lemma ssorted_strong : forall (l : lincomb), ssorted l -> StronglySorted Z.lt (map fst l).
Proof.
  induction 1; simpl; constructor; auto. apply Forall_map. auto.
Qed.
Lemma canon_normal : forall (l : lincomb),
  StronglySorted Z.lt (map fst (lc_canon l)) /\ Forall (fun vc => snd vc <> f0) (lc_canon l) /\
  (forall w, eval_lin w (lc_canon l) = eval_lin w l).
Proof.
  intros l. destruct (lc_canon_canonical l) as [H1 H2]. split; [apply ssorted_strong; auto|]. split; auto.
  apply lc_canon_eval.
Qed.
Lemma linearity_exact : forall (w : env), w vone = f1 ->
  (forall q l, q_try_linear q = Some l -> eval_quad w q = eval_lin w l) /\
  (forall l x, lc_try_constant l = Some x -> eval_lin w l = x) /\
  (forall l v x, lc_try_summand l = Some (v, x) -> eval_lin w l = fmul x (w v)).
Proof.
  intros w Hw. split; [|split].
  - intros; apply q_try_linear_spec; auto.
  - intros; apply lc_try_constant_spec; auto.
  - intros; apply lc_try_summand_spec; auto.
Qed.

(** An assignment moving along direction d at v: evaluation is affine in the value of a variable. *)
Definition upd (w : env) (v : var) (x : F) : env := fun u => if u =? v then x else w u.
Lemma eval_upd : forall l w v x, ssorted l ->
  eval_lin (upd w v x) l = fadd (eval_lin w l) (fmul (get0 v l) (fsub x (w v))).
Proof.
  intros l w v x Hs. induction Hs as [|u c r Hlt Hs IH]; [simpl; unfold get0; simpl; ring|].
  cbn [eval_lin]. rewrite IH. unfold get0. cbn [sget]. unfold upd at 1.
  destruct (Z.eqb_spec u v) as [->|Hne].
  - rewrite Z.eqb_refl.
    assert (Hn : sget v r = None).
    { destruct (sget v r) as [y|] eqn:E; auto. exfalso. clear - Hlt E. induction r as [|[a b] r IHr]; [discriminate|].
      inversion Hlt; subst. simpl in *. destruct (Z.eqb_spec v a); [lia|]. auto. }
    rewrite Hn. ring.
  - destruct (Z.eqb_spec v u); [congruence|]. ring.
Qed.

Lemma canonical_nonconst : forall l, canonical l -> lc_is_zero l = false -> lc_try_constant l = None ->
  exists v, v <> vone /\ get0 v l <> f0.
Proof.
  intros l [Hs Hn] Hz Hc. destruct l as [|[v0 c0] r]; [discriminate|]. inversion Hn as [|? ? N1 N2]; subst. simpl in N1.
  destruct (Z.eq_dec v0 vone) as [->|Hv].
  - destruct r as [|[v1 c1] r'].
    + simpl in Hc. discriminate.
    + inversion Hs as [|? ? ? Hlt Hs']; subst. inversion Hlt; subst. simpl in *. exists v1. split; [lia|].
      unfold get0. simpl. destruct (Z.eqb_spec v1 vone); [lia|]. rewrite Z.eqb_refl. inversion N2; auto.
  - exists v0. split; auto. unfold get0. simpl. rewrite Z.eqb_refl. auto.
Qed.

Lemma linearity_complete : forall (a b : lincomb) (l : lincomb), 2 < pp ->
  (forall w : env, w vone = f1 -> eval_quad w (mkQ (lc_canon a) (lc_canon b)) = eval_lin w l) ->
  exists l', q_try_linear (mkQ (lc_canon a) (lc_canon b)) = Some l'.
Proof.
  intros a b l Hp H. unfold q_try_linear; cbn [qleft qright].
  destruct (lc_is_zero (lc_canon a)) eqn:Za; [simpl; eauto|]. destruct (lc_is_zero (lc_canon b)) eqn:Zb; [simpl; eauto|].
  cbn [orb]. destruct (lc_try_constant (lc_canon a)) eqn:Ca; [eauto|]. destruct (lc_try_constant (lc_canon b)) eqn:Cb; [eauto|].
  exfalso. pose proof (lc_canon_canonical a) as [Sa Na]. pose proof (lc_canon_canonical b) as [Sb Nb].
  destruct (canonical_nonconst _ (lc_canon_canonical a) Za Ca) as [u [Hu Gu]].
  destruct (canonical_nonconst _ (lc_canon_canonical b) Zb Cb) as [v [Hv Gv]].
  set (A := lc_canon a) in *. set (B := lc_canon b) in *. set (L := lc_canon l).
  assert (HL : forall w : env, w vone = f1 -> fmul (eval_lin w A) (eval_lin w B) = eval_lin w L).
  { intros w Hw. unfold L. rewrite lc_canon_eval. apply (H w Hw). }
  assert (SL : ssorted L) by apply lc_canon_canonical.
  (* the second difference along v, then mixed, must vanish *)
  assert (Hupd : forall w x y, y <> vone -> w vone = f1 -> upd w y x vone = f1).
  { intros w x y Hy Hw. unfold upd. destruct (Z.eqb_spec vone y); [congruence|auto]. }
  assert (H2 : fadd f1 f1 <> f0).
  { change (fadd f1 f1) with (of_Z (fval f1 + fval f1)). intros E. apply (f_equal fval) in E.
    rewrite fval_f0, fval_f1 in E. simpl in E. rewrite Z.mod_small in E by lia. lia. }
  assert (Hdd : forall y, y <> vone -> fmul (get0 y A) (get0 y B) = f0).
  { intros y Hy. set (w0 := fun z : var => if z =? vone then f1 else f0).
    assert (W0 : w0 vone = f1) by (unfold w0; rewrite Z.eqb_refl; auto).
    assert (W0y : w0 y = f0) by (unfold w0; destruct (Z.eqb_spec y vone); [congruence|auto]).
    pose proof (HL w0 W0) as E0. pose proof (HL _ (Hupd w0 f1 y Hy W0)) as E1.
    pose proof (HL _ (Hupd w0 (fadd f1 f1) y Hy W0)) as E2.
    rewrite !eval_upd in E1, E2 by auto. rewrite W0y in *.
    assert (E : fmul (fadd f1 f1) (fmul (get0 y A) (get0 y B)) = f0).
    { generalize dependent (eval_lin w0 A). generalize dependent (eval_lin w0 B). generalize dependent (eval_lin w0 L).
      intros eL eB eA E0 E1 E2.
      set (gA := get0 y A) in *. set (gB := get0 y B) in *. set (gL := get0 y L) in *.
      transitivity (fadd (fsub (fmul (fadd eA (fmul gA (fsub (fadd f1 f1) f0))) (fadd eB (fmul gB (fsub (fadd f1 f1) f0))))
           (fmul (fadd f1 f1) (fmul (fadd eA (fmul gA (fsub f1 f0))) (fadd eB (fmul gB (fsub f1 f0)))))) (fmul eA eB)); [ring|].
      rewrite E0, E1, E2. ring. }
    apply fmul_integral in E. destruct E; [contradiction|auto]. }
  assert (Gub : get0 u B = f0) by (destruct (fmul_integral _ _ (Hdd u Hu)); [contradiction|auto]).
  assert (Gva : get0 v A = f0) by (destruct (fmul_integral _ _ (Hdd v Hv)); [auto|contradiction]).
  assert (Huv : u <> v) by (intros ->; contradiction).
  set (w0 := fun z : var => if z =? vone then f1 else f0).
  assert (W0 : w0 vone = f1) by (unfold w0; rewrite Z.eqb_refl; auto).
  assert (W0u : w0 u = f0) by (unfold w0; destruct (Z.eqb_spec u vone); [congruence|auto]).
  assert (W0v : w0 v = f0) by (unfold w0; destruct (Z.eqb_spec v vone); [congruence|auto]).
  assert (W1v : upd w0 u f1 v = f0) by (unfold upd; destruct (Z.eqb_spec v u); [congruence|auto]).
  pose proof (HL w0 W0) as E0. pose proof (HL _ (Hupd w0 f1 u Hu W0)) as E1. pose proof (HL _ (Hupd w0 f1 v Hv W0)) as E2.
  pose proof (HL _ (Hupd _ f1 v Hv (Hupd w0 f1 u Hu W0))) as E3.
  rewrite !eval_upd in E1 by auto. rewrite !eval_upd in E2 by auto.
  rewrite !(eval_upd _ (upd w0 u f1)) in E3 by auto. rewrite !(eval_upd _ w0) in E3 by auto.
  rewrite ?W1v, ?W0u, ?W0v, ?Gub, ?Gva in *.
  assert (E : fmul (get0 u A) (get0 v B) = f0).
  { generalize dependent (eval_lin w0 A). generalize dependent (eval_lin w0 B). generalize dependent (eval_lin w0 L).
    intros eL eB eA E0 E1 E2 E3.
    transitivity (fadd (fsub (fsub 
       (fmul (fadd (fadd eA (fmul (get0 u A) (fsub f1 f0))) (fmul f0 (fsub f1 f0))) (fadd (fadd eB (fmul f0 (fsub f1 f0))) (fmul (get0 v B) (fsub f1 f0))))
       (fmul (fadd eA (fmul (get0 u A) (fsub f1 f0))) (fadd eB (fmul f0 (fsub f1 f0)))))
       (fmul (fadd eA (fmul f0 (fsub f1 f0))) (fadd eB (fmul (get0 v B) (fsub f1 f0))))) (fmul eA eB)); [ring|].
    rewrite E0, E1, E2, E3. ring. }
  apply fmul_integral in E. destruct E; contradiction.
Qed.

Lemma taut_preserves : forall (w : env) (bs out : list bstmt) st,
  w vone = f1 -> run_bpass (bstep taut_step) tt bs = Some (st, out) ->
  (sat w (flat_stmts out) <-> sat w (flat_stmts bs)).
Proof. intros w bs out st Hw H. exact (taut_bpass_iff (fun _ _ => None) w Hw bs st out H). Qed.
Lemma canon_preserves : forall (w : env) (bs out : list bstmt) st,
  run_bpass (bstep canon_pass_step) tt bs = Some (st, out) ->
  (sat w (flat_stmts out) <-> sat w (flat_stmts bs)).
Proof. intros w bs out st H. exact (canon_bpass_iff (fun _ _ => None) w bs st out H). Qed.
Lemma stateless_total : forall (bs : list bstmt),
  (exists out, run_bpass (bstep taut_step) tt bs = Some (tt, out)) /\
  (exists out, run_bpass (bstep canon_pass_step) tt bs = Some (tt, out)).
Proof.
  assert (G : forall step : unit -> stmt -> option (unit * list stmt), (forall s, exists o, step tt s = Some (tt, o)) ->
    forall bs, exists out, run_bpass (bstep step) tt bs = Some (tt, out)).
  { intros step Hst. assert (Hp : forall ss, exists o, run_pass step tt ss = Some (tt, o)).
    { induction ss as [|s r [o IH]]; simpl; [eauto|]. destruct (Hst s) as [o' ->]. rewrite IH. eauto. }
    induction bs as [|b r [o IH]]; simpl; [eauto|].
    destruct b as [s|ss]; simpl; [destruct (Hst s) as [o' ->]|destruct (Hp ss) as [o' ->]]; rewrite IH; eauto. }
  intros bs. split; apply G; intros s.
  - destruct s as [q l e| |]; simpl; eauto. destruct (q_try_linear q) as [l'|]; [destruct (lc_eqb l' l)|]; eauto.
  - unfold canon_pass_step; eauto.
Qed.
Lemma duplicates_constraints : forall (hash : stmt -> Z) (bs out : list bstmt) st,
  (forall a b, In a (flat_stmts bs) -> In b (flat_stmts bs) -> hash a = hash b -> strip a = strip b) ->
  run_bpass (dup_bstep hash) [] bs = Some (st, out) ->
  forall w : env, sat w (flat_stmts out) <-> sat w (flat_stmts bs).
Proof.
  intros hash bs out st Hnc H w.
  exact (dup_bpass_iff hash (flat_stmts bs) Hnc bs [] [] st out (fun x (Hx : In x []) => match Hx with end) (incl_refl _)
    (fun h => conj (fun x => x) (fun x => x)) H w (Forall_nil _)).
Qed.
End G.

Local Existing Instance pf97.
Definition nth_out (l : list Z) : list Z := l.
Lemma nodup_ex : NoDup (vone :: map pid ex_args).
Proof. apply nodupb_spec. reflexivity. Qed.
Lemma ex_c01 : NoDup (vone :: map pid ex_args) /\
  fresh_outs (vone :: map pid ex_args) ex_prog /\ show_outs (exec_prog slv ex_args ex_prog [k 3]) = Some [64; 0].
Proof.
  split; [apply nodup_ex|]. split; [|apply ex_run].
  destruct (intro_all (vone :: map pid ex_args) ex_prog) as [D|] eqn:E; [|discriminate].
  eapply intro_fresh; eauto. apply incl_refl.
Qed.
Lemma ex_c02 : NoDup (vone :: map pid ex_args) /\ def_before_use ex_args ex_prog = true /\
  exists w, w vone = f1 /\ map (fun a => w (pid a)) ex_args = [k 3] /\ sat w ex_prog /\ follows slv w ex_prog.
Proof.
  split; [apply nodup_ex|]. split; [reflexivity|].
  destruct (intro_all (vone :: map pid ex_args) ex_prog) as [D|] eqn:E; [|discriminate].
  destruct (exec_prog slv ex_args ex_prog [k 3]) as [w log| | | |] eqn:Ex;
    try (exfalso; apply (f_equal show_outs) in Ex; vm_compute in Ex; discriminate).
  destruct (exec_follows slv _ _ _ _ _ _ (exec_solver_arity no_ext) E nodup_ex Ex) as [_ [H1 [H2 [H3 [H4 _]]]]].
  exists (env_of w). auto.
Qed.
Lemma ex_c07 : exists st out,
  run_pass (redef_step slv false) (redef_init ex_args 2) ex_prog = Some (st, out) /\ length out = 9%nat.
Proof.
  destruct (run_pass (redef_step slv false) (redef_init ex_args 2) ex_prog) as [[st out]|] eqn:E.
  - exists st, out. split; auto.
    change (match Some (st, out) with Some (_, l) => length l | None => 0%nat end = 9%nat). rewrite <- E. vm_compute. reflexivity.
  - exfalso. apply (f_equal (fun o => match o with Some _ => true | None => false end)) in E. vm_compute in E. discriminate.
Qed.
Lemma ex_c11 : exists s4 out, optimize_4 slv ex_args 2 ex_prog = Some s4 /\
  (forall a b, In a s4 -> In b s4 -> ex_hash a = ex_hash b -> strip a = strip b) /\
  optimize_flat slv ex_hash ex_args 2 ex_prog = Some out /\ length out = 7%nat /\
  show_outs (exec_prog slv ex_args out [k 3]) = Some [64; 0].
Proof.
  destruct (optimize_4 slv ex_args 2 ex_prog) as [s4|] eqn:E; 
    [|exfalso; apply (f_equal (fun o => match o with Some _ => true | None => false end)) in E; vm_compute in E; discriminate].
  destruct (optimize_flat slv ex_hash ex_args 2 ex_prog) as [out|] eqn:E2;
    [|exfalso; apply (f_equal (fun o => match o with Some _ => true | None => false end)) in E2; vm_compute in E2; discriminate].
  exists s4, out. split; [auto|]. split.
  { unfold ex_hash, ex_opt4. rewrite E. apply index_of_nc. }
  split; [auto|]. split.
  - change (match Some out with Some l => length l | None => 0%nat end = 7%nat). rewrite <- E2. vm_compute. reflexivity.
  - change (show_outs (match Some out with Some l => exec_prog slv ex_args l [k 3] | None => Panic end) = Some [64; 0]).
    rewrite <- E2. vm_compute. reflexivity.
Qed.
