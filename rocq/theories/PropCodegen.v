(** Property theorems: lowering (C05), gadgets (C12-C16, C20), expressions (C17-C19), assertions (C23), arguments (C24),
    whole programs (C41).

    Reading guide. A code generation step [m] run in a state [s] gives [m s = Some (result, s', em)] where [em] are the
    emitted flat statements. For an assignment [w] of all wires:
    - [Forall (gsat w) em]: [w] satisfies every emitted constraint, whoever produced [w] (and no stale entry of the
      bits cache was used, see C42);
    - [Forall (hon (exec_solver ext) w) em]: [w] is the assignment an honest prover computes, definitions and solver
      answers being followed;
    - [feval w e]: the value of a flat expression; [fval]: the canonical integer of a field element;
    - [cache_ok w H s]: the decompositions cached in [s] are correct under [w] (true of the initial state and preserved);
    - [lay_ok w rho G s]: every source variable of [G] has a wire in [s] whose value represents its value in [rho]. *)
From Coq Require Import ZArith NArith List Bool Lia.
From Verif Require Import PField SMap IR IRSpec Wf Interp Optimizer OptPipeline Bits Flat FlatProofs Zir Codegen CgBase CgGadgets CgExpr CgStmt CgEmit CgProg CgWf CgEnd
  Concrete Primality CgExamples.
Import ListNotations.
Open Scope Z_scope.

(** From the internal triple to explicit statements. *)
Lemma ok_sound : forall (PF : PrimeField) ext (w : env) rho G A (m : M A) P, ok ext w False rho G True m P ->
  forall s a s' em, cache_ok w False s -> lay_ok w rho G s -> m s = Some (a, s', em) -> Forall (gsat w) em -> P a.
Proof. intros PF ext w rho G A m P H s a s' em Hc Hl E Hs. destruct (H s a s' em (conj Hc Hl) E) as [H1 _]. apply H1; auto. contradiction. Qed.
Lemma ok_honest : forall (PF : PrimeField) ext (w : env) rho G (C : Prop) A (m : M A) P, ok ext w True rho G C m P -> C ->
  forall s a s' em, cache_ok w True s -> lay_ok w rho G s -> m s = Some (a, s', em) -> Forall (hon (exec_solver ext) w) em -> Forall (fsat w) em /\ P a.
Proof.
  intros PF ext w rho G C A m P H HC s a s' em Hc Hl E Hh. destruct (H s a s' em (conj Hc Hl) E) as [H1 H2].
  pose proof (H2 I HC Hh) as Hf. split; auto. apply H1; auto. apply (hon_gsat ext); auto.
Qed.
Definition no_vars {PF : PrimeField} : env_s := fun _ => None.
Definition no_kinds {PF : PrimeField} : tenv := fun _ => None.
Lemma lay_none : forall (PF : PrimeField) w s, lay_ok w no_vars no_kinds s.
Proof. intros PF w s x k H. discriminate. Qed.
Ltac soundly L := intros; match goal with Hc : cache_ok _ False _, E : _ = Some (_, _, _), Hs : Forall (gsat _) _ |- _ => exact (ok_sound _ (fun _ _ => None) _ _ _ _ _ _ L _ _ _ _ Hc (lay_none _ _ _) E Hs) end.

(** C05 *)
Theorem C05_lowering_same_assignments : forall (PF : PrimeField) (w : env) (ss : list fstmt) (out : list stmt),
  w vone = f1 -> lower ss = Some out -> (sat w out <-> Forall (fsat w) ss) /\ logs_of w out = flogs_of w ss.
Proof. intros. split; [apply lower_sat|apply lower_logs]; auto. Qed.
Print Assumptions C05_lowering_same_assignments.
Theorem C05_lowering_accepts_rank_one : forall (PF : PrimeField) (ss : list fstmt),
  (exists out, lower ss = Some out) <-> forallb shape_ok ss = true.
Proof. intros. apply lower_shape. Qed.
Print Assumptions C05_lowering_accepts_rank_one.
Theorem C05_lowering_keeps_execution : forall (PF : PrimeField) solve (w : env) (ss : list fstmt) (out : list stmt),
  w vone = f1 -> lower ss = Some out -> Forall (hon solve w) ss -> follows solve w out.
Proof. intros. eapply lower_follows; eauto. Qed.
Print Assumptions C05_lowering_keeps_execution.
Example C05_nonvacuous : exists (ss : list (@fstmt pf97)) out (w : @env pf97), w vone = f1 /\ @lower pf97 ss = Some out /\ length out = 2%nat /\ Forall (fsat w) ss.
Proof.
  exists [XDef 1 (XMul (XAdd (XId 2) (XVal (of_Z 3))) (XId 2)) None; XCond (XId 1) (XVal (of_Z 10)) 0].
  eexists. exists (fun v => if v =? 1 then of_Z 10 else if v =? 2 then of_Z 2 else f1).
  split; [reflexivity|]. split; [reflexivity|]. split; [reflexivity|].
  repeat constructor; apply F_ext; vm_compute; reflexivity.
Qed.

(** C12 *)
Theorem C12_decomposition_forced : forall (PF : PrimeField) (w : env) (s : st) k n err bits s' em, (3 <= required_bits)%nat ->
  cache_ok w False s -> get_bits (UF k None) n n err s = Some (bits, s', em) -> Forall (gsat w) em ->
  exists bs, map (feval w) bits = map f_of_bool bs /\ length bs = n /\ of_Z (bv bs) = feval w k /\
    ((n < required_bits)%nat -> fval (feval w k) < 2 ^ Z.of_nat n /\ bs = bits_be n (fval (feval w k))).
Proof.
  intros PF w s k n err bits s' em Hr Hc E Hs.
  assert (H : length bits = n /\ entry_ok w False k bits (Nat.leb n n)).
  { revert s bits s' em Hc E Hs. refine (fun s bits s' em Hc E Hs => ok_sound PF (fun _ _ => None) w no_vars no_kinds _ _ _ (ok_get_bits _ w False _ _ Hr True k n n err _ _) s bits s' em Hc (lay_none _ _ _) E Hs); [right; auto|intros []]. }
  destruct H as [Hl [bs [Hb [_ [_ [Hv Hf]]]]]]. rewrite Nat.leb_refl in *. pose proof (EB_length w _ _ Hb) as Hbl.
  exists bs. split; [exact Hb|]. split; [congruence|]. split; [auto|]. intros Hn.
  pose proof (bv_range bs) as Hbr. rewrite <- Hbl, Hl in Hbr. pose proof (pow2_small_lt_pp n Hn).
  destruct Hv as [E1 E2]; [lia|]. specialize (E2 eq_refl). rewrite Hl in E1, E2. split; [exact E2|].
  pose proof (fval_range (feval w k)). rewrite Z.mod_small in E1 by lia. rewrite <- E1. rewrite <- (bits_be_bv bs) at 1. congruence.
Qed.
Print Assumptions C12_decomposition_forced.
(** Truncating decomposition: [from] bits are constrained, the [to] low ones returned. *)
Theorem C12_truncation_forced : forall (PF : PrimeField) (w : env) (s : st) k from to err bits s' em, (3 <= required_bits)%nat -> (to < required_bits)%nat -> (from < required_bits)%nat ->
  cache_ok w False s -> get_bits (UF k None) from to err s = Some (bits, s', em) -> Forall (gsat w) em ->
  map (feval w) bits = map f_of_bool (bits_be to (fval (feval w k))).
Proof.
  intros PF w s k from to err bits s' em Hr Ht Hf Hc E Hs.
  assert (H : length bits = to /\ entry_ok w False k bits (Nat.leb from to)).
  { refine (ok_sound PF (fun _ _ => None) w no_vars no_kinds _ _ _ (ok_get_bits _ w False _ _ Hr True k from to err _ _) s bits s' em Hc (lay_none _ _ _) E Hs); [left; auto|intros []]. }
  destruct H as [Hl [bs [Hb [_ [_ [Hv _]]]]]]. pose proof (EB_length w _ _ Hb) as Hbl.
  pose proof (bv_range bs) as Hbr. rewrite <- Hbl, Hl in Hbr. pose proof (pow2_small_lt_pp to Ht).
  destruct Hv as [E1 _]; [lia|]. rewrite Hl in E1. rewrite <- bits_be_mod, <- E1. rewrite <- Hl, Hbl, bits_be_bv. exact Hb.
Qed.
Print Assumptions C12_truncation_forced.
Theorem C12_decomposition_honest : forall (PF : PrimeField) ext (w : env) (s : st) k n err bits s' em, (3 <= required_bits)%nat ->
  cache_ok w True s -> get_bits (UF k None) n n err s = Some (bits, s', em) -> Forall (hon (exec_solver ext) w) em ->
  fval (feval w k) < 2 ^ Z.of_nat n -> Forall (fsat w) em.
Proof.
  intros PF ext w s k n err bits s' em Hr Hc E Hh Hk.
  refine (proj1 (ok_honest PF ext w no_vars no_kinds True _ _ _ (ok_get_bits ext w True _ _ Hr True k n n err _ _) I s bits s' em Hc (lay_none _ _ _) E Hh)); [right; auto|].
  intros _ _. rewrite Nat.max_id. exact Hk.
Qed.
Print Assumptions C12_decomposition_honest.

Definition st0 {PF : PrimeField} : st := mkSt 1 [] [].
Lemma cache0 : forall (PF : PrimeField) w H, cache_ok w H st0.
Proof. constructor. Qed.
Definition w13 : @env bn254 := fun v => if v =? 1 then of_Z 13 else f1.
Definition zs {PF : PrimeField} (w : env) (l : list fexp) : list Z := map (fun e => fval (feval w e)) l.
Example C12_nonvacuous : exists bits s' em (w : @env bn254), (3 <= @required_bits bn254)%nat /\ cache_ok w False st0 /\ get_bits (UF (XId 1) None) 8 8 0 st0 = Some (bits, s', em) /\
  Forall (gsat w) em /\ Forall (hon (exec_solver (fun _ _ => None)) w) em /\ (zs w bits, fval (w 1)) = ([0; 0; 0; 0; 1; 1; 0; 1], 13).
Proof.
  destruct (run_check_ok _ w13 (get_bits (UF (XId 1) None) 8 8 0 st0) (fun w b => fval (w 1) :: zs w b) [13; 0; 0; 0; 0; 1; 1; 0; 1]) as [a [s' [em [w [A [B [C D]]]]]]].
  { vm_compute. reflexivity. }
  exists a, s', em, w. split; [vm_compute; lia|]. split; [apply cache0|]. injection D as D1 D2. repeat (split; auto). congruence.
Qed.

(** C13 *)
Theorem C13_equality_test : forall (PF : PrimeField) (w : env) (s : st) l r e s' em,
  cache_ok w False s -> eq_check l r s = Some (e, s', em) -> Forall (gsat w) em ->
  feval w e = (if fval (feval w l) =? fval (feval w r) then f1 else f0).
Proof. intros PF w s l r e s' em. soundly (ok_eq_check (fun _ _ => None) w False no_vars no_kinds True l r). Qed.
Print Assumptions C13_equality_test.
Theorem C13_equality_test_honest : forall (PF : PrimeField) ext (w : env) (s : st) l r e s' em,
  cache_ok w True s -> eq_check l r s = Some (e, s', em) -> Forall (hon (exec_solver ext) w) em -> Forall (fsat w) em.
Proof. intros PF ext w s l r e s' em Hc E Hh. exact (proj1 (ok_honest PF ext w no_vars no_kinds True _ _ _ (ok_eq_check ext w True _ _ True l r) I s _ _ _ Hc (lay_none _ _ _) E Hh)). Qed.
Print Assumptions C13_equality_test_honest.
Example C13_nonvacuous : exists e s' em (w : @env bn254), eq_check (XId 1) (XVal (of_Z 12)) st0 = Some (e, s', em) /\
  Forall (gsat w) em /\ Forall (hon (exec_solver (fun _ _ => None)) w) em /\ zs w [XId 1; e] = [13; 0].
Proof.
  destruct (run_check_ok _ w13 (eq_check (XId 1) (XVal (of_Z 12)) st0) (fun w e => zs w [XId 1; e]) [13; 0]) as [a [s' [em [w H]]]]; [vm_compute; reflexivity|eauto 8].
Qed.

(** C14: the conditions are booleans, all of them true iff the bits denote an integer at most the constant's. *)
Theorem C14_constant_comparison_of_bits : forall (PF : PrimeField) (w : env) (s : st) a b bs conds s' em, (3 <= required_bits)%nat ->
  cache_ok w False s -> map (feval w) a = map f_of_bool bs -> constant_le_check a b s = Some (conds, s', em) -> Forall (gsat w) em ->
  exists cs, map (feval w) conds = map f_of_bool cs /\ (length conds <= length a)%nat /\
    (forallb (fun c => c) cs = true <-> bv bs <= bv b).
Proof.
  intros PF w s a b bs conds s' em Hr Hc Ha E Hs.
  destruct (ok_sound PF (fun _ _ => None) w no_vars no_kinds _ _ _ (ok_constant_le_check _ w False _ _ Hr True a b bs Ha) s conds s' em Hc (lay_none _ _ _) E Hs) as [cs [H1 [H2 [_ H3]]]].
  eauto.
Qed.
Print Assumptions C14_constant_comparison_of_bits.
Theorem C14_enforced : forall (PF : PrimeField) (w : env) (s : st) a c bs err u s' em, (3 <= required_bits)%nat -> (length a <= required_bits)%nat ->
  cache_ok w False s -> map (feval w) a = map f_of_bool bs -> enforce_le_bits a c err s = Some (u, s', em) -> Forall (gsat w) em -> bv bs <= bv c.
Proof.
  intros PF w s a c bs err u s' em Hr Hl Hc Ha E Hs.
  refine (ok_sound PF (fun _ _ => None) w no_vars no_kinds _ _ _ (ok_enforce_le_bits _ w False _ _ Hr True a c bs err Ha Hl _) s u s' em Hc (lay_none _ _ _) E Hs). intros [].
Qed.
Print Assumptions C14_enforced.
Theorem C14_enforced_honest : forall (PF : PrimeField) ext (w : env) (s : st) a c bs err u s' em, (3 <= required_bits)%nat -> (length a <= required_bits)%nat ->
  cache_ok w True s -> map (feval w) a = map f_of_bool bs -> enforce_le_bits a c err s = Some (u, s', em) -> Forall (hon (exec_solver ext) w) em ->
  bv bs <= bv c -> Forall (fsat w) em.
Proof.
  intros PF ext w s a c bs err u s' em Hr Hl Hc Ha E Hh Hv.
  refine (proj1 (ok_honest PF ext w no_vars no_kinds True _ _ _ (ok_enforce_le_bits ext w True _ _ Hr True a c bs err Ha Hl _) I s u s' em Hc (lay_none _ _ _) E Hh)). auto.
Qed.
Print Assumptions C14_enforced_honest.
Definition wbits (l : list Z) : @env bn254 := fun v => of_Z (nth (Z.to_nat v) l 1).
Example C14_nonvacuous :
  (exists u s' em (w : @env bn254), enforce_le_bits [XId 1; XId 2; XId 3] [true; false; true] 0 (mkSt 3 [] []) = Some (u, s', em) /\
    Forall (gsat w) em /\ Forall (hon (exec_solver (fun _ _ => None)) w) em /\ zs w [XId 1; XId 2; XId 3] = [1; 0; 1]).
Proof.
  destruct (run_check_ok _ (wbits [1; 1; 0; 1]) (enforce_le_bits [XId 1; XId 2; XId 3] [true; false; true] 0 (mkSt 3 [] [])) (fun w e => zs w [XId 1; XId 2; XId 3]) [1; 0; 1]) as [a [s' [em [w H]]]]; [vm_compute; reflexivity|eauto 8].
Qed.

(** C15 *)
Theorem C15_lt_constant : forall (PF : PrimeField) (w : env) (s : st) x c e s' em, (3 <= required_bits)%nat ->
  cache_ok w False s -> constant_lt x c s = Some (e, s', em) -> Forall (gsat w) em ->
  feval w e = (if fval (feval w x) <? fval c then f1 else f0).
Proof. intros PF w s x c e s' em Hr. soundly (ok_constant_lt (fun _ _ => None) w False no_vars no_kinds Hr True x c). Qed.
Print Assumptions C15_lt_constant.
Theorem C15_le_constant : forall (PF : PrimeField) (w : env) (s : st) x c e s' em, (3 <= required_bits)%nat ->
  cache_ok w False s -> constant_field_le x c s = Some (e, s', em) -> Forall (gsat w) em ->
  feval w e = (if fval (feval w x) <=? fval c then f1 else f0).
Proof. intros PF w s x c e s' em Hr. soundly (ok_constant_field_le (fun _ _ => None) w False no_vars no_kinds Hr True x c). Qed.
Print Assumptions C15_le_constant.
Theorem C15_gt_constant : forall (PF : PrimeField) (w : env) (s : st) x c e s' em, (3 <= required_bits)%nat ->
  cache_ok w False s -> constant_lt (XSub (XVal fmax) x) (fsub fmax c) s = Some (e, s', em) -> Forall (gsat w) em ->
  feval w e = (if fval c <? fval (feval w x) then f1 else f0).
Proof. intros PF w s x c e s' em Hr. soundly (ok_constant_gt (fun _ _ => None) w False no_vars no_kinds Hr True x c). Qed.
Print Assumptions C15_gt_constant.
Theorem C15_honest : forall (PF : PrimeField) ext (w : env) (s : st) x c e s' em, (3 <= required_bits)%nat ->
  cache_ok w True s -> (constant_lt x c s = Some (e, s', em) \/ constant_field_le x c s = Some (e, s', em)) -> Forall (hon (exec_solver ext) w) em ->
  Forall (fsat w) em.
Proof.
  intros PF ext w s x c e s' em Hr Hc [E|E] Hh.
  - exact (proj1 (ok_honest PF ext w no_vars no_kinds True _ _ _ (ok_constant_lt ext w True _ _ Hr True x c) I s _ _ _ Hc (lay_none _ _ _) E Hh)).
  - exact (proj1 (ok_honest PF ext w no_vars no_kinds True _ _ _ (ok_constant_field_le ext w True _ _ Hr True x c) I s _ _ _ Hc (lay_none _ _ _) E Hh)).
Qed.
Print Assumptions C15_honest.
Definition wbig : @env bn254 := fun v => if v =? 1 then of_Z (bn254_r - 2) else f1.
Example C15_nonvacuous : exists e s' em (w : @env bn254), (3 <= @required_bits bn254)%nat /\ constant_lt (XId 1) (of_Z (bn254_r - 1)) st0 = Some (e, s', em) /\
  Forall (gsat w) em /\ Forall (hon (exec_solver (fun _ _ => None)) w) em /\ zs w [XId 1; e] = [bn254_r - 2; 1].
Proof.
  destruct (run_check_ok _ wbig (constant_lt (XId 1) (of_Z (bn254_r - 1)) st0) (fun w e => zs w [XId 1; e]) [bn254_r - 2; 1]) as [a [s' [em [w H]]]]; [vm_compute; reflexivity|].
  exists a, s', em, w. split; [vm_compute; lia|auto].
Qed.

(** C16 *)
Theorem C16_dynamic_field_lt : forall (PF : PrimeField) (w : env) (s : st) l r e s' em, (3 <= required_bits)%nat ->
  cache_ok w False s -> field_lt l r s = Some (e, s', em) -> Forall (gsat w) em ->
  feval w e = (if fval (feval w l) <? fval (feval w r) then f1 else f0) /\
  (is_val l = false -> is_val r = false -> fval (feval w l) < 2 ^ (Z.of_nat required_bits - 2) /\ fval (feval w r) < 2 ^ (Z.of_nat required_bits - 2)).
Proof.
  intros PF w s l r e s' em Hr Hc E Hs.
  assert (H : dyn_ok w l r /\ feval w e = f_of_bool (fval (feval w l) <? fval (feval w r))).
  { refine (ok_sound PF (fun _ _ => None) w no_vars no_kinds _ _ _ (ok_field_lt _ w False _ _ Hr True l r _) s e s' em Hc (lay_none _ _ _) E Hs). intros []. }
  destruct H as [Hd He]. split; [exact He|]. intros Hl Hrr. unfold dyn_ok in Hd. rewrite Hl, Hrr in Hd. specialize (Hd eq_refl).
  assert (E2 : 2 ^ (Z.of_nat required_bits - 2) = pow2 safe_width) by (unfold pow2, safe_width; f_equal; lia). rewrite E2. exact Hd.
Qed.
Print Assumptions C16_dynamic_field_lt.
Theorem C16_dynamic_field_lt_honest : forall (PF : PrimeField) ext (w : env) (s : st) l r e s' em, (3 <= required_bits)%nat ->
  cache_ok w True s -> field_lt l r s = Some (e, s', em) -> Forall (hon (exec_solver ext) w) em ->
  (is_val l = true \/ is_val r = true \/ (fval (feval w l) < 2 ^ (Z.of_nat required_bits - 2) /\ fval (feval w r) < 2 ^ (Z.of_nat required_bits - 2))) ->
  Forall (fsat w) em.
Proof.
  intros PF ext w s l r e s' em Hr Hc E Hh Hd.
  refine (proj1 (ok_honest PF ext w no_vars no_kinds True _ _ _ (ok_field_lt ext w True _ _ Hr True l r _) I s e s' em Hc (lay_none _ _ _) E Hh)).
  intros _ _. unfold dyn_ok. intros Hv. apply orb_false_iff in Hv as [V1 V2].
  assert (E2 : 2 ^ (Z.of_nat required_bits - 2) = pow2 safe_width) by (unfold pow2, safe_width; f_equal; lia). rewrite E2 in Hd.
  destruct Hd as [Hd|[Hd|Hd]]; [congruence|congruence|exact Hd].
Qed.
Print Assumptions C16_dynamic_field_lt_honest.
(** the comparison of n-bit integers *)
Theorem C16_uint_lt : forall (PF : PrimeField) (w : env) (s : st) l r n e s' em, (3 <= required_bits)%nat -> (n + 1 < required_bits)%nat ->
  fval (feval w l) < 2 ^ Z.of_nat n -> fval (feval w r) < 2 ^ Z.of_nat n ->
  cache_ok w False s -> lt_check l r n s = Some (e, s', em) -> Forall (gsat w) em ->
  feval w e = (if fval (feval w l) <? fval (feval w r) then f1 else f0).
Proof.
  intros PF w s l r n e s' em Hr Hn Hl Hrr Hc E Hs.
  refine (ok_sound PF (fun _ _ => None) w no_vars no_kinds _ _ _ (ok_lt_check _ w False _ _ Hr True l r n _ _) s e s' em Hc (lay_none _ _ _) E Hs); [lia|]. auto.
Qed.
Print Assumptions C16_uint_lt.
Theorem C16_uint_lt_honest : forall (PF : PrimeField) ext (w : env) (s : st) l r n e s' em, (3 <= required_bits)%nat -> (n + 1 < required_bits)%nat ->
  fval (feval w l) < 2 ^ Z.of_nat n -> fval (feval w r) < 2 ^ Z.of_nat n ->
  cache_ok w True s -> lt_check l r n s = Some (e, s', em) -> Forall (hon (exec_solver ext) w) em -> Forall (fsat w) em.
Proof.
  intros PF ext w s l r n e s' em Hr Hn Hl Hrr Hc E Hh.
  refine (proj1 (ok_honest PF ext w no_vars no_kinds True _ _ _ (ok_lt_check ext w True _ _ Hr True l r n _ _) I s e s' em Hc (lay_none _ _ _) E Hh)); [lia|]. auto.
Qed.
Print Assumptions C16_uint_lt_honest.
Definition w58 : @env bn254 := fun v => if v =? 1 then of_Z 5 else if v =? 2 then of_Z 8 else f1.
Example C16_nonvacuous :
  (exists e s' em (w : @env bn254), field_lt (XId 1) (XId 2) (mkSt 2 [] []) = Some (e, s', em) /\
    Forall (gsat w) em /\ Forall (hon (exec_solver (fun _ _ => None)) w) em /\ zs w [XId 1; XId 2; e] = [5; 8; 1]) /\
  (exists e s' em (w : @env bn254), lt_check (XId 2) (XId 1) 32 (mkSt 2 [] []) = Some (e, s', em) /\
    Forall (gsat w) em /\ Forall (hon (exec_solver (fun _ _ => None)) w) em /\ zs w [XId 1; XId 2; e] = [5; 8; 0]).
Proof.
  split.
  - destruct (run_check_ok _ w58 (field_lt (XId 1) (XId 2) (mkSt 2 [] [])) (fun w e => zs w [XId 1; XId 2; e]) [5; 8; 1]) as [a [s' [em [w H]]]]; [vm_compute; reflexivity|eauto 8].
  - destruct (run_check_ok _ w58 (lt_check (XId 2) (XId 1) 32 (mkSt 2 [] [])) (fun w e => zs w [XId 1; XId 2; e]) [5; 8; 0]) as [a [s' [em [w H]]]]; [vm_compute; reflexivity|eauto 8].
Qed.
