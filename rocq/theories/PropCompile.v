(** Property theorems: expressions (C17-C20), assertions (C23), arguments (C24), whole programs (C41).
    Reading guide: see PropCodegen.v. [wt G e] (CgExpr.v): the expression is well typed and carries the uint annotations the
    uint optimiser has to establish (C21). [divs rho e] (CgExpr.v): no field division by zero is evaluated; in whole
    programs this is enforced by the assertions of the panic extractor (C40). [sem], [sem_prog] (Zir.v): the meaning of
    source expressions and programs. *)
From Coq Require Import ZArith NArith List Bool Lia.
From Verif Require Import PField SMap IR IRSpec Wf Interp Optimizer OptimizerProofs OptPipeline OptExtra Bits Flat FlatProofs Zir Codegen CgBase CgGadgets CgExpr CgStmt CgEmit CgProg CgWf CgEnd
  InterpProofs PropIR Concrete Primality CgExamples CgCheck PropCodegen.
Import ListNotations.
Open Scope Z_scope.

Lemma expr_sound : forall (PF : PrimeField) (w : env) rho G (s : st) e u s' em, (3 <= required_bits)%nat -> wt G e -> divs rho e ->
  cache_ok w False s -> lay_ok w rho G s -> flat e s = Some (u, s', em) -> Forall (gsat w) em -> exists v, sem rho e = Some v /\ ures w e v u.
Proof.
  intros PF w rho G s e u s' em Hr Hw Hd Hc Hl E Hs.
  refine (ok_sound PF (fun _ _ => None) w rho G _ _ _ (flat_ok _ w False rho G Hr e True Hw Hd _) s u s' em Hc Hl E Hs). intros [].
Qed.
Lemma expr_honest : forall (PF : PrimeField) ext (w : env) rho G (s : st) e u s' em, (3 <= required_bits)%nat -> wt G e -> sem rho e <> None ->
  cache_ok w True s -> lay_ok w rho G s -> flat e s = Some (u, s', em) -> Forall (hon (exec_solver ext) w) em -> Forall (fsat w) em.
Proof.
  intros PF ext w rho G s e u s' em Hr Hw Hd Hc Hl E Hh.
  refine (proj1 (ok_honest PF ext w rho G True _ _ _ (flat_ok ext w True rho G Hr e True Hw (sem_divs rho e Hd) _) I s u s' em Hc Hl E Hh)). auto.
Qed.

(** C17 *)
Theorem C17_boolean_expressions : forall (PF : PrimeField) (w : env) rho G (s : st) e u s' em, (3 <= required_bits)%nat ->
  wt G e -> zkind e = KB -> divs rho e ->
  cache_ok w False s -> lay_ok w rho G s -> flat e s = Some (u, s', em) -> Forall (gsat w) em ->
  exists b, sem rho e = Some (VB b) /\ feval w (getf u) = (if b then f1 else f0).
Proof.
  intros PF w rho G s e u s' em Hr Hw Hk Hd Hc Hl E Hs. destruct (expr_sound PF w rho G s e u s' em Hr Hw Hd Hc Hl E Hs) as [v [Hv Hu]].
  apply (ures_KB _ _ _ _ Hk) in Hu as [b [-> Hb]]. eauto.
Qed.
Print Assumptions C17_boolean_expressions.
Theorem C17_boolean_expressions_honest : forall (PF : PrimeField) ext (w : env) rho G (s : st) e u s' em, (3 <= required_bits)%nat ->
  wt G e -> zkind e = KB -> sem rho e <> None ->
  cache_ok w True s -> lay_ok w rho G s -> flat e s = Some (u, s', em) -> Forall (hon (exec_solver ext) w) em -> Forall (fsat w) em.
Proof. intros. eapply expr_honest; eauto. Qed.
Print Assumptions C17_boolean_expressions_honest.

(** C18 *)
Theorem C18_field_expressions : forall (PF : PrimeField) (w : env) rho G (s : st) e u s' em, (3 <= required_bits)%nat ->
  wt G e -> zkind e = KF -> divs rho e ->
  cache_ok w False s -> lay_ok w rho G s -> flat e s = Some (u, s', em) -> Forall (gsat w) em ->
  sem rho e = Some (VF (feval w (getf u))).
Proof.
  intros PF w rho G s e u s' em Hr Hw Hk Hd Hc Hl E Hs. destruct (expr_sound PF w rho G s e u s' em Hr Hw Hd Hc Hl E Hs) as [v [Hv Hu]].
  apply (ures_KF _ _ _ _ Hk) in Hu as [b [-> [Hb _]]]. congruence.
Qed.
Print Assumptions C18_field_expressions.
Theorem C18_field_expressions_honest : forall (PF : PrimeField) ext (w : env) rho G (s : st) e u s' em, (3 <= required_bits)%nat ->
  wt G e -> zkind e = KF -> sem rho e <> None ->
  cache_ok w True s -> lay_ok w rho G s -> flat e s = Some (u, s', em) -> Forall (hon (exec_solver ext) w) em -> Forall (fsat w) em.
Proof. intros. eapply expr_honest; eauto. Qed.
Print Assumptions C18_field_expressions_honest.

(** C19: the wire of a uint expression carries an integer N at most the annotated maximum, below the modulus, congruent to
    the machine result modulo 2^width; once reduced it carries the machine result itself. *)
Theorem C19_uint_expressions : forall (PF : PrimeField) (w : env) rho G (s : st) e u s' em a, (3 <= required_bits)%nat ->
  wt G e -> zkind e = KU a -> divs rho e ->
  cache_ok w False s -> lay_ok w rho G s -> flat e s = Some (u, s', em) -> Forall (gsat w) em ->
  exists n, sem rho e = Some (VU n) /\ 0 <= n < 2 ^ Z.of_nat (uw a) /\
    fval (feval w (getf u)) <= fval (umax a) /\ fval (umax a) < 2 ^ Z.of_nat (required_bits - 1) /\
    fval (feval w (getf u)) mod 2 ^ Z.of_nat (uw a) = n /\
    (ured a = SRTrue -> fval (feval w (getf u)) = n) /\
    (forall bits, getbits u = Some bits -> map (feval w) bits = map f_of_bool (bits_be (uw a) n)).
Proof.
  intros PF w rho G s e u s' em a Hr Hw Hk Hd Hc Hl E Hs. destruct (expr_sound PF w rho G s e u s' em Hr Hw Hd Hc Hl E Hs) as [v [Hv Hu]].
  pose proof (wt_kind _ _ Hw) as Ha. rewrite Hk in Ha. destruct Ha as [_ [_ Ha]].
  apply (ures_KU _ _ _ _ _ Hk) in Hu as [n [-> [Hu Hb]]]. exists n. split; auto. pose proof (urep_range _ _ _ Hu) as Hn. split; [exact Hn|].
  pose proof (urep_red Hr a n (feval w (getf u))) as Hrd. pose proof Hu as Hu0. destruct Hu as [N [H1 [H2 [H3 H4]]]]. rewrite H4, fval_of_Z_small by lia. pose proof (ubound_le a).
  split; [lia|]. split; [exact Ha|]. split; [exact H3|]. split; [|exact Hb].
  intros Hred. destruct (Hrd Hred Hu0) as [_ [X _]]. rewrite H4, fval_of_Z_small in X by lia. auto.
Qed.
Print Assumptions C19_uint_expressions.
Theorem C19_uint_expressions_honest : forall (PF : PrimeField) ext (w : env) rho G (s : st) e u s' em a, (3 <= required_bits)%nat ->
  wt G e -> zkind e = KU a -> sem rho e <> None ->
  cache_ok w True s -> lay_ok w rho G s -> flat e s = Some (u, s', em) -> Forall (hon (exec_solver ext) w) em -> Forall (fsat w) em.
Proof. intros. eapply expr_honest; eauto. Qed.
Print Assumptions C19_uint_expressions_honest.

(** C20 *)
Theorem C20_euclidean_division : forall (PF : PrimeField) (w : env) (s : st) n l r q m s' em, (3 <= required_bits)%nat -> (n + 1 < required_bits)%nat -> (2 * n < required_bits)%nat ->
  fval (feval w l) < 2 ^ Z.of_nat n -> fval (feval w r) < 2 ^ Z.of_nat n ->
  cache_ok w False s -> euclid n l r s = Some ((q, m), s', em) -> Forall (gsat w) em ->
  fval (feval w r) <> 0 /\
  fval (feval w q) = fval (feval w l) / fval (feval w r) /\ fval (feval w m) = fval (feval w l) mod fval (feval w r).
Proof.
  intros PF w s n l r q m s' em Hr Hn H2 Hl Hrr Hc E Hs.
  assert (H : fval (feval w r) <> 0 /\ feval w q = of_Z (fval (feval w l) / fval (feval w r)) /\ feval w m = of_Z (fval (feval w l) mod fval (feval w r))).
  { refine (ok_sound PF (fun _ _ => None) w no_vars no_kinds _ _ _ (ok_euclid _ w False _ _ Hr True n l r _ H2 Hl Hrr _) s (q, m) s' em Hc (lay_none _ _ _) E Hs); [lia|intros []]. }
  destruct H as [H0 [-> ->]]. split; auto. pose proof (fval_range (feval w l)). pose proof (fval_range (feval w r)).
  pose proof (Z.mod_pos_bound (fval (feval w l)) (fval (feval w r)) ltac:(lia)). pose proof (Z.div_pos (fval (feval w l)) (fval (feval w r)) ltac:(lia) ltac:(lia)).
  assert (fval (feval w l) / fval (feval w r) <= fval (feval w l)) by (apply Z.div_le_upper_bound; [lia|]; nia).
  rewrite !fval_of_Z_small by lia. auto.
Qed.
Print Assumptions C20_euclidean_division.
Theorem C20_euclidean_division_honest : forall (PF : PrimeField) ext (w : env) (s : st) n l r q m s' em, (3 <= required_bits)%nat -> (n + 1 < required_bits)%nat -> (2 * n < required_bits)%nat ->
  fval (feval w l) < 2 ^ Z.of_nat n -> fval (feval w r) < 2 ^ Z.of_nat n -> fval (feval w r) <> 0 ->
  cache_ok w True s -> euclid n l r s = Some ((q, m), s', em) -> Forall (hon (exec_solver ext) w) em -> Forall (fsat w) em.
Proof.
  intros PF ext w s n l r q m s' em Hr Hn H2 Hl Hrr H0 Hc E Hh.
  refine (proj1 (ok_honest PF ext w no_vars no_kinds True _ _ _ (ok_euclid ext w True _ _ Hr True n l r _ H2 Hl Hrr _) I s (q, m) s' em Hc (lay_none _ _ _) E Hh)); [lia|auto].
Qed.
Print Assumptions C20_euclidean_division_honest.

(** C23 *)
Theorem C23_assertions_enforced : forall (PF : PrimeField) (w : env) rho G (s : st) e err u s' em, (3 <= required_bits)%nat ->
  wt G e -> zkind e = KB -> divs rho e ->
  cache_ok w False s -> lay_ok w rho G s -> flat_stmt (ZAssert e err) s = Some (u, s', em) -> Forall (gsat w) em ->
  sem rho e = Some (VB true).
Proof.
  intros PF w rho G s e err u s' em Hr Hw Hk Hd Hc Hl E Hs.
  refine (ok_sound PF (fun _ _ => None) w rho G _ _ _ (ok_assertion _ w False rho G Hr e True err Hw Hk Hd _) s u s' em Hc Hl E Hs). intros [].
Qed.
Print Assumptions C23_assertions_enforced.
Theorem C23_assertions_honest : forall (PF : PrimeField) ext (w : env) rho G (s : st) e err u s' em, (3 <= required_bits)%nat ->
  wt G e -> zkind e = KB -> sem rho e = Some (VB true) ->
  cache_ok w True s -> lay_ok w rho G s -> flat_stmt (ZAssert e err) s = Some (u, s', em) -> Forall (hon (exec_solver ext) w) em -> Forall (fsat w) em.
Proof.
  intros PF ext w rho G s e err u s' em Hr Hw Hk Hd Hc Hl E Hh.
  refine (proj1 (ok_honest PF ext w rho G True _ _ _ (ok_assertion ext w True rho G Hr e True err Hw Hk (sem_divs rho e _) _) I s u s' em Hc Hl E Hh)); [congruence|auto].
Qed.
Print Assumptions C23_assertions_honest.

(** C24: every assignment satisfying a compiled program gives each argument a value of its type. *)
Definition arg_in_range {PF : PrimeField} (t : ptype) (x : F) : Prop :=
  match t with PF_ => True | PB_ => x = f0 \/ x = f1 | PU_ n => fval x < 2 ^ Z.of_nat n end.
Lemma val_in_range : forall (PF : PrimeField) t x, val_of_input t x <> None -> arg_in_range t x.
Proof.
  intros PF [| |n] x H; cbn in *; auto.
  - destruct (Feqb_spec x f0); [auto|]. destruct (Feqb_spec x f1); [auto|congruence].
  - destruct (Z.ltb_spec (fval x) (2 ^ Z.of_nat n)); [auto|congruence].
Qed.
Lemma bind_each : forall (PF : PrimeField) ps rho xs rho', bind_params rho ps xs = Some rho' -> Forall2 (fun p x => val_of_input (zptype p) x <> None) ps xs.
Proof.
  intros PF. induction ps as [|p ps IH]; intros rho [|x xs] rho' H; cbn in *; try discriminate; [constructor|].
  destruct (val_of_input (zptype p) x) eqn:E; [|discriminate]. constructor; [congruence|eauto].
Qed.
Theorem C24_arguments_in_range : forall (PF : PrimeField) p c (w : env), (3 <= required_bits)%nat ->
  Forall (fun q => match zptype q with PU_ n => (1 <= n)%nat /\ (2 * n + 3 <= required_bits)%nat | _ => True end) (zargs p) ->
  compile p = Some c -> cache_safe p -> satisfies w c ->
  Forall2 (fun q a => arg_in_range (zptype q) (w (pid a))) (zargs p) (pargs c).
Proof.
  intros PF p c w Hr Hp H Hs [W1 Hsat]. destruct (compile_inv _ _ H) as [prms [em [ss [Ec [El ->]]]]]. cbn [pargs pstmts] in *. rewrite flat_singles in Hsat.
  unfold cache_safe in Hs. rewrite Ec in Hs. assert (Hg : Forall (gsat w) em) by (apply gsat_of; auto; apply (lower_sat _ _ _ W1 El); auto).
  unfold codegen, codegen_m, bind, ret in Ec.
  destruct (mapM use_param (zargs p) init_st) as [[[qs s1] o1]|] eqn:E1; [|discriminate].
  destruct (flat_stmts_z (zbody p) s1) as [[[tt0 s2] o2]|] eqn:E2; [|discriminate]. injection Ec as <- <-. apply Forall_app in Hg as [Hg _].
  assert (Hi0 : Inv w False (fun _ => None) (fun _ => None) init_st) by (split; [constructor|intros z k Hz; discriminate]).
  destruct (params_ok (fun _ _ => None) w False Hr (zargs p) _ _ _ _ _ _ Hi0 Hp E1) as [A _]. destruct (A Hg) as [rho [B _]]; [intros []|].
  apply bind_each in B. clear - B. remember (map (fun q => w (pid q)) qs) as xs eqn:E. revert qs E. induction B as [|p0 x ps xs Hx HB IH]; intros [|q qs] E; try discriminate; constructor.
  - injection E as -> E. apply val_in_range; auto.
  - injection E as _ E. auto.
Qed.
Print Assumptions C24_arguments_in_range.

(** C41: compilation (code generation, lowering, optimisation) is sound and complete with respect to the source meaning. *)
Theorem C41_compile_sound : forall (PF : PrimeField) p c (w : env), (3 <= required_bits)%nat -> wtp p -> unpacks_checked p -> compile p = Some c -> cache_safe p ->
  let inputs := map (fun q => w (pid q)) (pargs c) in
  safe_prog p inputs -> satisfies w c ->
  sem_prog p inputs = Some (map (fun i => w (vpub i)) (seq 0 (zret p)), logs_of w (flat_stmts (pstmts c))).
Proof. intros PF. exact compile_sound. Qed.
Print Assumptions C41_compile_sound.
Theorem C41_compile_complete : forall (PF : PrimeField) ext p c (inputs : list F) rets logs, (3 <= required_bits)%nat -> wtp p -> ends_return p -> compile p = Some c -> cache_clean p ->
  sem_prog p inputs = Some (rets, logs) ->
  exists w, exec_prog (exec_solver ext) (pargs c) (flat_stmts (pstmts c)) inputs = Done w logs /\
    map (fun i => sget (vpub i) w) (seq 0 (zret p)) = map Some rets.
Proof. intros PF. exact compile_complete. Qed.
Print Assumptions C41_compile_complete.
Theorem C41_compiled_defined_before_use : forall (PF : PrimeField) p c, ends_return p -> compile p = Some c ->
  def_before_use (pargs c) (flat_stmts (pstmts c)) = true /\ NoDup (vone :: map pid (pargs c)) /\ length (pargs c) = length (zargs p) /\ pret c = zret p.
Proof. intros PF. exact compile_def_before_use. Qed.
Print Assumptions C41_compiled_defined_before_use.
Theorem C41_optimized_sound : forall (PF : PrimeField) ext (hash : stmt -> Z) p c c' s4 (w : env), (3 <= required_bits)%nat -> wtp p -> unpacks_checked p -> ends_return p -> compile p = Some c -> cache_safe p ->
  optimize_4 (exec_solver ext) (pargs c) (pret c) (flat_stmts (pstmts c)) = Some s4 ->
  (forall a b, In a s4 -> In b s4 -> hash a = hash b -> strip a = strip b) ->
  optimize (exec_solver ext) hash c = Some c' ->
  let inputs := map (fun q => w (pid q)) (pargs c') in
  safe_prog p inputs -> satisfies w c' ->
  exists logs, sem_prog p inputs = Some (map (fun i => w (vpub i)) (seq 0 (zret p)), logs).
Proof. intros PF. exact compile_optimize_sound. Qed.
Print Assumptions C41_optimized_sound.
Theorem C41_optimized_complete : forall (PF : PrimeField) ext (hash : stmt -> Z) p c (inputs : list F) rets logs, (3 <= required_bits)%nat -> wtp p -> ends_return p -> compile p = Some c -> cache_clean p ->
  sem_prog p inputs = Some (rets, logs) ->
  exists s4, optimize_4 (exec_solver ext) (pargs c) (pret c) (flat_stmts (pstmts c)) = Some s4 /\
  ((forall a b, In a s4 -> In b s4 -> hash a = hash b -> strip a = strip b) ->
   exists c' w logs', optimize (exec_solver ext) hash c = Some c' /\
     exec_prog (exec_solver ext) (pargs c') (flat_stmts (pstmts c')) inputs = Done w logs' /\
     map (fun i => sget (vpub i) w) (seq 0 (zret p)) = map Some rets /\ (forall e, In e logs' <-> In e logs)).
Proof. intros PF. exact compile_optimize_complete. Qed.
Print Assumptions C41_optimized_complete.

(** ** Examples, over the BN254 scalar field:
      def main(private u32 a, u32 b, private field x) -> (u32, field) {
        u32 d = a + b; assert(x < 100); log("..", d);
        return (a / b, [x, x + x, 7][d]); } *)
Definition U (m : Z) (r : sreduce) : @ann bn254 := mkAnn 32 (of_Z m) r.
Definition m32 : Z := 2 ^ 32 - 1.
Definition va r := ZId (KU (U m32 r)) 1.
Definition vb r := ZId (KU (U m32 r)) 2.
Definition ex_d : @zexp bn254 := ZUBin (U (2 * m32) SRTrue) UAdd (va SRFalse) (vb SRFalse).
Definition ex_assert : @zexp bn254 := ZCmp CFLt (ZId KF 3) (ZFVal (of_Z 100)).
Definition ex_div : @zexp bn254 := ZUBin (U m32 SRTrue) UDiv (va SRTrue) (vb SRTrue).
Definition ex_sel : @zexp bn254 := ZSel KF [ZId KF 3; ZFBin FAdd (ZId KF 3) (ZId KF 3); ZFVal (of_Z 7)] (ZId (KU (U (2 * m32) SRTrue)) 4).
Definition ex_zprog : @zprog bn254 :=
  mkZProg [mkZParam 1 (PU_ 32) true; mkZParam 2 (PU_ 32) false; mkZParam 3 PF_ true]
    [ZDef 4 ex_d; ZAssert ex_assert 0; ZLog 5 [ZId (KU (U (2 * m32) SRTrue)) 4]; ZReturn [ex_div; ex_sel]] 2.
Definition ex_in : list (@F bn254) := [of_Z 1; f0; of_Z 9].
Definition ex_in2 : list (@F bn254) := [of_Z 1; of_Z 1; of_Z 9].
Definition show_sem (r : option (list (@F bn254) * list (Z * list (@F bn254)))) : option (list Z * list (Z * list Z)) :=
  match r with Some (a, b) => Some (map fval a, map (fun x => (fst x, map fval (snd x))) b) | None => None end.

Lemma fvals_inj : forall a b : list (@F bn254), map fval a = map fval b -> a = b.
Proof. induction a as [|x a IH]; intros [|y b] H; [reflexivity|discriminate H|discriminate H|]. injection H as H1 H2. rewrite (IH _ H2), (F_ext x y H1). reflexivity. Qed.
Lemma show_sem_inj : forall a b, show_sem a = show_sem b -> a = b.
Proof.
  intros [[a l]|] [[b m]|] H; [|discriminate H|discriminate H|reflexivity]. cbn [show_sem] in H. injection H as H1 H2. rewrite (fvals_inj _ _ H1).
  assert (E : l = m); [|rewrite E; reflexivity]. clear H1. revert m H2. induction l as [|[f x] l IH]; intros [|[g y] m] H2; [reflexivity|discriminate H2|discriminate H2|].
  cbn [map fst snd] in H2. injection H2 as H3 H4 H5. rewrite H3, (fvals_inj _ _ H4), (IH _ H5). reflexivity.
Qed.
Example C41_nonvacuous : wtp ex_zprog /\ ends_return ex_zprog /\ (exists c, compile ex_zprog = Some c /\ (200 <? Z.of_nat (length (pstmts c))) = true) /\
  cache_clean ex_zprog /\ cache_safe ex_zprog /\ show_sem (sem_prog ex_zprog ex_in2) = Some ([1; 7], [(5, [2])]) /\ sem_prog ex_zprog ex_in = None /\ unpacks_checked ex_zprog.
Proof.
  split; [apply wtpb_ok; vm_compute; reflexivity|]. split; [apply ends_returnb_ok; vm_compute; reflexivity|].
  assert (C : cache_clean ex_zprog /\ cache_safe ex_zprog) by (apply cleanb_ok; vm_compute; reflexivity).
  split; [|destruct C as [C1 C2]; split; [exact C1|]; split; [exact C2|]; split; [|split]; vm_compute; reflexivity].
  assert (H : match compile ex_zprog with Some c => 200 <? Z.of_nat (length (pstmts c)) | None => false end = true) by (vm_compute; reflexivity).
  destruct (compile ex_zprog) as [c|]; [eauto|discriminate H].
Qed.
(** ... hence the compiled program runs, with these results. *)
Example C41_runs : exists c w, compile ex_zprog = Some c /\
  exec_prog (exec_solver (fun _ _ => None)) (pargs c) (flat_stmts (pstmts c)) ex_in2 = Done w [(5, [of_Z 2])] /\
  map (fun i => sget (vpub i) w) (seq 0 2) = [Some (of_Z 1); Some (of_Z 7)].
Proof.
  destruct C41_nonvacuous as [A [B [[c [C _]] [D [_ [E _]]]]]].
  assert (Hsem : sem_prog ex_zprog ex_in2 = Some ([of_Z 1; of_Z 7], [(5, [of_Z 2])])).
  { apply show_sem_inj. rewrite E. vm_compute. reflexivity. }
  destruct (C41_compile_complete bn254 (fun _ _ => None) ex_zprog c ex_in2 _ _ ltac:(vm_compute; lia) A B C D Hsem) as [w [W1 W2]].
  exists c, w. split; [exact C|]. split; [exact W1|]. exact W2.
Qed.

(** Expressions of the three kinds, laid out on wires 1-3. *)
Definition ex_st : @st bn254 := mkSt 4 [(1, 1); (2, 2); (3, 3); (4, 4)] [].
Definition ex_w : @env bn254 := fun v => if v =? 3 then of_Z 9 else if v =? 4 then of_Z 2 else f1.
Definition ex_rho : @env_s bn254 := fun x => if x =? 1 then Some (VU 1) else if x =? 2 then Some (VU 1) else if x =? 3 then Some (VF (of_Z 9)) else if x =? 4 then Some (VU 2) else None.
Definition ex_G : @tenv bn254 := fun x => if x =? 1 then Some (KU (U m32 SRFalse)) else if x =? 2 then Some (KU (U m32 SRFalse)) else if x =? 3 then Some KF else if x =? 4 then Some (KU (U (2 * m32) SRTrue)) else None.
Lemma upd_low : forall solve em (w : @env bn254) v, Forall (fun s => match s with XDef u _ _ => 4 < u | XDir outs _ _ => Forall (fun u => 4 < u) outs | _ => True end) em -> v <= 4 ->
  hexec solve w em v = w v.
Proof.
  intros solve. induction em as [|s em IH]; intros w v H Hv; auto. inversion H as [|? ? H1 H2]; subst. destruct s; cbn [hexec]; try (apply IH; auto; fail).
  - rewrite IH by auto. unfold upd1. destruct (Z.eqb_spec v v0); [lia|auto].
  - destruct (solve s (map (feval w) ins)); rewrite IH by auto; auto. apply upds_other. intros Hin. rewrite Forall_forall in H1. specialize (H1 v Hin). lia.
Qed.
Definition high (em : list (@fstmt bn254)) : bool := forallb (fun s => match s with XDef u _ _ => 4 <? u | XDir outs _ _ => forallb (fun u => 4 <? u) outs | _ => true end) em.
Lemma ex_lay : forall w : @env bn254, (forall v, 1 <= v <= 4 -> w v = ex_w v) -> lay_ok w ex_rho ex_G ex_st.
Proof.
  intros w Hw x k Hx. unfold ex_G in Hx.
  assert (R : forall n m r, 0 <= n <= Z.min m m32 -> m = m32 \/ m = 2 * m32 -> urep (U m r) n (of_Z n)).
  { intros n m r Hn Hm. exists n. unfold ubound. cbn [U ured umax uw]. assert (M : fval (of_Z m : @F bn254) = m) by (destruct Hm as [->| ->]; vm_compute; reflexivity).
    rewrite M. assert (pow2 32 = m32 + 1) by reflexivity. assert (@pp bn254 = bn254_r) by reflexivity. assert (2 * m32 < bn254_r) by (vm_compute; reflexivity).
    split; [destruct r; lia|]. split; [lia|]. split; auto. apply Z.mod_small. lia. }
  destruct (Z.eqb_spec x 1) as [->|]; [|destruct (Z.eqb_spec x 2) as [->|]; [|destruct (Z.eqb_spec x 3) as [->|]; [|destruct (Z.eqb_spec x 4) as [->|]; [|discriminate]]]]; injection Hx as <-;
    (eexists; eexists; split; [reflexivity|]; split; [reflexivity|]; rewrite Hw by lia; cbn [vrel]; [idtac]).
  - apply (R 1); [unfold m32; lia|auto].
  - apply (R 1); [unfold m32; lia|auto].
  - reflexivity.
  - apply (R 2); [unfold m32; lia|auto].
Qed.
Definition ex_run (e : @zexp bn254) (out : Z) : Prop :=
  wt ex_G e /\ sem ex_rho e <> None /\ divs ex_rho e /\
  exists u s' em (w : @env bn254), flat e ex_st = Some (u, s', em) /\ Forall (gsat w) em /\ Forall (hon (exec_solver (fun _ _ => None)) w) em /\
    lay_ok w ex_rho ex_G ex_st /\ fval (feval w (getf u)) = out.
Lemma ex_run_ok : forall e out, wtb ex_G e = true -> match sem ex_rho e with Some _ => true | None => false end = true ->
  run_check ex_w (flat e ex_st) (fun w u => [fval (feval w (getf u))]) [out] && high (em_of (flat e ex_st)) = true -> ex_run e out.
Proof.
  intros e out H1 H2 H3. apply andb_prop in H3 as [H3 H4].
  assert (Hs : sem ex_rho e <> None) by (destruct (sem ex_rho e); [discriminate|discriminate]).
  split; [apply wtb_ok; auto|]. split; auto. split; [apply sem_divs; auto|].
  unfold run_check in H3. unfold em_of in H4. destruct (flat e ex_st) as [[[u s'] em]|] eqn:E; [|discriminate].
  set (w := hexec (exec_solver (fun _ _ => None)) ex_w em) in *. apply andb_prop in H3 as [H3 H6]. apply andb_prop in H3 as [H3 H5].
  exists u, s', em, w. split; auto. split; [apply gsatb_ok; auto|]. split; [apply honb_ok; auto|]. split.
  - apply ex_lay. intros v Hv. apply upd_low; [|lia]. unfold high in H4. rewrite forallb_forall in H4. apply Forall_forall. intros s Hs'. specialize (H4 s Hs').
    destruct s; auto; [apply Z.ltb_lt; auto|]. apply Forall_forall. intros x Hx. rewrite forallb_forall in H4. apply Z.ltb_lt; auto.
  - apply andb_prop in H6 as [H6 _]. apply Z.eqb_eq in H6. exact H6.
Qed.
Example C17_nonvacuous : ex_run (ZBBin BOr ex_assert (ZCmp CULt (va SRTrue) (vb SRTrue))) 1.
Proof. apply ex_run_ok; vm_compute; reflexivity. Qed.
Example C18_nonvacuous : ex_run (ZFBin FDiv ex_sel (ZId KF 3)) (fval (fdiv (of_Z 7) (of_Z 9 : @F bn254))).
Proof. apply ex_run_ok; vm_compute; reflexivity. Qed.
Example C19_nonvacuous : ex_run (ZUBin (U (m32 + 2 ^ 32) SRTrue) USub (ZUVal (U m32 SRFalse) 0) (va SRFalse)) m32.
Proof. apply ex_run_ok; vm_compute; reflexivity. Qed.
Example C20_nonvacuous : exists q m s' em (w : @env bn254), (2 * 32 < @required_bits bn254)%nat /\ euclid 32 (XId 1) (XId 2) (mkSt 2 [] []) = Some ((q, m), s', em) /\
  Forall (gsat w) em /\ Forall (hon (exec_solver (fun _ _ => None)) w) em /\ zs w [XId 1; XId 2; q; m] = [17; 5; 3; 2].
Proof.
  destruct (run_check_ok _ (fun v => if v =? 1 then of_Z 17 else if v =? 2 then of_Z 5 else f1 : @F bn254) (euclid 32 (XId 1) (XId 2) (mkSt 2 [] [])) (fun w qm => zs w [XId 1; XId 2; fst qm; snd qm]) [17; 5; 3; 2]) as [[q m] [s' [em [w H]]]]; [vm_compute; reflexivity|].
  exists q, m, s', em, w. split; [vm_compute; lia|auto].
Qed.
Example C23_nonvacuous : wt ex_G ex_assert /\ sem ex_rho ex_assert = Some (VB true) /\
  exists u s' em (w : @env bn254), flat_stmt (ZAssert ex_assert 0) ex_st = Some (u, s', em) /\ Forall (gsat w) em /\ Forall (hon (exec_solver (fun _ _ => None)) w) em /\ fval (w 3) = 9.
Proof.
  split; [apply wtb_ok; vm_compute; reflexivity|]. split.
  - assert (H : match sem ex_rho ex_assert with Some (VB true) => true | _ => false end = true) by (vm_compute; reflexivity). destruct (sem ex_rho ex_assert) as [[|[]|]|]; auto; discriminate.
  - destruct (run_check_ok _ ex_w (flat_stmt (ZAssert ex_assert 0) ex_st) (fun w _ => [fval (w 3)]) [9]) as [u [s' [em [w [A [B [C D]]]]]]]; [vm_compute; reflexivity|].
    injection D as D. eauto 10.
Qed.
Example C24_nonvacuous : exists c w, compile ex_zprog = Some c /\ satisfies w c /\ map (fun a => w (pid a)) (pargs c) = ex_in2.
Proof.
  destruct C41_nonvacuous as [A [B _]]. destruct C41_runs as [c [w [C [D _]]]]. exists c, (env_of w). split; auto.
  destruct (compile_def_before_use _ _ B C) as [Hd [Hn _]]. unfold def_before_use in Hd.
  destruct (intro_all (vone :: map pid (pargs c)) (flat_stmts (pstmts c))) as [d|] eqn:Ei; [|discriminate].
  destruct (C01_execution_satisfies bn254 _ _ _ _ _ _ Hn (intro_fresh _ _ _ _ Ei (incl_refl _)) D) as [H1 [H2 [H3 _]]].
  split; [split; [unfold env_of; rewrite H1; auto|auto]|].
  apply (f_equal (map (fun o => match o with Some x => x | None => f0 end))) in H2. rewrite !map_map in H2. rewrite map_id in H2. exact H2.
Qed.
