(** Property theorems: the uint optimiser (C21, C22) and the cache of bit decompositions (C42).
    Reading guide. [sty_prog p] (UintOpt.v): p is well typed, uint widths w satisfy 2w + 3 <= bits of the field.
    [uint_optimize] (UintOpt.v): the optimiser; None is a panic of the compiler. [sem_prog] (Zir.v): source meaning.
    [raw] (UintRaw.v): the integer a uint expression is computed to before reduction modulo 2^width, following the
    annotations; [bounds_stmts]: at every uint (sub-)expression of every executed statement the raw integer is at most the
    recorded maximum, the maximum is below 2^(bits-1), and the raw integer is congruent to the source value.
    [smax_ok_prog]: the annotated program contains no shift of an operand whose recorded maximum is cut by the shift
    formula, and no subtraction whose right operand's maximum takes all bits but one of the field. *)
From Coq Require Import ZArith NArith List Bool Lia.
From Verif Require Import PField SMap IR IRSpec Wf Interp Optimizer OptimizerProofs OptPipeline OptExtra Bits Flat FlatProofs Zir Codegen CgBase CgGadgets CgExpr CgStmt CgEmit CgProg CgWf CgEnd
  InterpProofs PropIR Concrete Primality CgExamples CgCheck PropCodegen PropCompile UintOpt UintOptProofs UintRaw UintCheck.
Import ListNotations.
Open Scope Z_scope.

(** C21: the optimiser never panics and never changes the meaning ... *)
Theorem C21_optimizer_preserves : forall (PF : PrimeField) p, sty_prog p ->
  exists p', uint_optimize p = Some p' /\ zargs p' = zargs p /\ zret p' = zret p /\ forall inputs, sem_prog p' inputs = sem_prog p inputs.
Proof. intros PF p H. destruct (uint_optimize_ok p H) as [p' [A [B [C [D _]]]]]. eauto 10. Qed.
Print Assumptions C21_optimizer_preserves.
(** ... and its maxima are bounds, except at the shifts and subtractions excluded by [smax_ok_prog]. *)
Theorem C21_maxima_partial : forall (PF : PrimeField) p p' inputs rho, sty_prog p ->
  uint_optimize p = Some p' -> smax_ok_prog p' -> bind_params (fun _ => None) (zargs p) inputs = Some rho ->
  bounds_stmts (mkOuts rho [] []) (rparams rho) (zbody p').
Proof.
  intros PF p p' inputs rho H E Hm Hb. destruct (uint_optimize_ok p H) as [p1 [A [B [_ [_ D]]]]].
  rewrite E in A. injection A as <-. apply (raw_prog p' inputs); [apply D, smax_max_prog; auto|auto|]. rewrite B. exact Hb.
Qed.
Print Assumptions C21_maxima_partial.

(** ** Programs over the BN254 scalar field *)
Definition W (w : nat) : @ann bn254 := mkAnn w f0 SRUnknown.
Definition uid (w : nat) (x : ident) : @zexp bn254 := ZId (KU (W w)) x.
Definition ulit (w : nat) (n : Z) : @zexp bn254 := ZUVal (W w) n.
Definition no_ext : Z -> list (@F bn254) -> option (list (@F bn254)) := fun _ _ => None.
(** analyse, compile and execute; the returned values *)
Definition compiled (p : @zprog bn254) : option (@prog bn254) := match uint_optimize p with Some p' => compile p' | None => None end.
Definition outputs (n : nat) (o : @outcome bn254) : option (list (option Z)) :=
  match o with Done w _ => Some (map (fun i => option_map fval (sget (vpub i) w)) (seq 0 n)) | _ => None end.
Definition run_prog (c : @prog bn254) (inputs : list Z) : option (list (option Z)) :=
  outputs (pret c) (exec_prog (exec_solver no_ext) (pargs c) (flat_stmts (pstmts c)) (map of_Z inputs)).
Definition run_compiled (p : @zprog bn254) (inputs : list Z) : option (list (option Z)) :=
  match compiled p with Some c => run_prog c inputs | None => Some [] end.
Definition source_result (p : @zprog bn254) (inputs : list Z) : option (list Z) :=
  match sem_prog p (map of_Z inputs) with Some (r, _) => Some (map fval r) | None => None end.
Lemma run_compiled_ok : forall p inputs r, run_compiled p inputs = r -> r <> Some [] -> exists c, compiled p = Some c /\ run_prog c inputs = r.
Proof. intros p inputs r H N. unfold run_compiled in H. destruct (compiled p) as [c|]; [eauto|congruence]. Qed.

(** A program exercising all operators:
      def main(private u32 a, u32 b) -> (u32, bool) { u32 d = (a * b - (a ^ b)) + 7; return (d / b + (d << 3) - (d >> 2), a < d); } *)
Definition exu : @zprog bn254 :=
  let d := uid 32 4 in
  mkZProg [mkZParam 1 (PU_ 32) true; mkZParam 2 (PU_ 32) false]
    [ZDef 4 (ZUBin (W 32) UAdd (ZUBin (W 32) USub (ZUBin (W 32) UMul (uid 32 1) (uid 32 2)) (ZUBin (W 32) UXor (uid 32 1) (uid 32 2))) (ulit 32 7));
     ZDef 5 (ZUBin (W 32) UXor d (ulit 32 0));
     ZReturn [ZUBin (W 32) USub (ZUBin (W 32) UAdd (ZUBin (W 32) UDiv d (uid 32 2)) (ZShl (W 32) (uid 32 5) 3)) (ZShr (W 32) (uid 32 5) 2);
              ZCond KF (ZCmp CULt (uid 32 1) d) (ZFVal (of_Z 1)) (ZFVal f0)]] 2.
Example C21_nonvacuous : sty_prog exu /\ source_result exu [1000; 5] = Some [31816; 1] /\ run_compiled exu [1000; 5] = Some [Some 31816; Some 1] /\
  exists (p' : @zprog bn254) (rho : @env_s bn254), uint_optimize exu = Some p' /\ smax_ok_prog p' /\ bind_params (fun _ => None) (zargs exu) ([of_Z 1000; of_Z 5] : list (@F bn254)) = Some rho.
Proof.
  split; [apply sty_progb_ok; vm_compute; reflexivity|]. split; [vm_compute; reflexivity|]. split; [vm_compute; reflexivity|].
  assert (H : match uint_optimize exu with Some p' => smax_ok_progb p' | None => false end = true) by (vm_compute; reflexivity).
  assert (B : match bind_params (fun _ => None) (zargs exu) ([of_Z 1000; of_Z 5] : list (@F bn254)) with Some _ => true | None => false end = true) by (vm_compute; reflexivity).
  destruct (uint_optimize exu) as [p'|]; [|discriminate H]. destruct (bind_params (fun _ => None) (zargs exu) ([of_Z 1000; of_Z 5] : list (@F bn254))) as [rho|]; [|discriminate B].
  exists p', rho. split; [reflexivity|]. split; [apply smax_ok_progb_ok; exact H|reflexivity].
Qed.

(** C21 is false of shifts: in `def main(private u8 x) -> u8 { return (x + 1) >> 1; }` the operand has maximum 256, the
    recorded maximum of the shift is (256 mod 256) >> 1 = 0, but the value is up to 127. *)
Definition shr1 : @zexp bn254 := ZShr (W 8) (ZUBin (W 8) UAdd (uid 8 1) (ulit 8 1)) 1.
Definition p_shr : @zprog bn254 := mkZProg [mkZParam 1 (PU_ 8) true] [ZReturn [shr1]] 1.
Definition beyond (p' : @zprog bn254) (rho : @env_s bn254) : bool :=
  match zbody p' with
  | [ZReturn [ZShr a e k]] => match sem rho (ZShr a e k) with Some (VU n) => fval (umax a) <? n | _ => false end
  | _ => false
  end.
Theorem C21_shift_maximum_refuted : exists (p p' : @zprog bn254) (rho : @env_s bn254) inputs, sty_prog p /\ uint_optimize p = Some p' /\
  bind_params (fun _ => None) (zargs p) inputs = Some rho /\ ~ bounds_stmts (mkOuts rho [] []) (rparams rho) (zbody p').
Proof.
  assert (H : match uint_optimize p_shr, bind_params (fun _ => None) (zargs p_shr) ([of_Z 200] : list (@F bn254)) with Some p', Some rho => beyond p' rho | _, _ => false end = true) by (vm_compute; reflexivity).
  destruct (uint_optimize p_shr) as [p'|] eqn:E; [|discriminate H]. destruct (bind_params (fun _ => None) (zargs p_shr) ([of_Z 200] : list (@F bn254))) as [rho|] eqn:B; [|discriminate H].
  exists p_shr, p', rho, [of_Z 200]. split; [apply sty_progb_ok; vm_compute; reflexivity|]. split; [exact E|]. split; [exact B|]. clear E B. unfold beyond in H.
  destruct (zbody p') as [|[es| | | | |] [|]]; try discriminate H; (destruct es as [|[] [|]]; try discriminate H).
  destruct (sem rho (ZShr a e by_)) as [[| |n]|] eqn:S; try discriminate H. apply Z.ltb_lt in H.
  intros [X _]. cbn [bounds_stmt os_env] in X. inversion X as [|? ? X1 _]. apply bounds_here in X1. unfold bounded in X1. cbn [zkind] in X1. destruct (X1 n S) as [Y _].
  cbn [raw] in Y. unfold uval in Y. rewrite S in Y. lia.
Qed.
Print Assumptions C21_shift_maximum_refuted.
(** ... and so a valid program cannot be executed: `return ((x + 1) >> 1) * 4;` on x = 200. *)
Definition p_shr4 : @zprog bn254 := mkZProg [mkZParam 1 (PU_ 8) true] [ZReturn [ZUBin (W 8) UMul shr1 (ulit 8 4)]] 1.
Theorem C21_shift_execution_refuted : exists (p : @zprog bn254) c inputs, sty_prog p /\ compiled p = Some c /\ source_result p inputs = Some [144] /\ run_prog c inputs = None.
Proof.
  destruct (run_compiled_ok p_shr4 [200] None) as [c [A B]]; [vm_compute; reflexivity|discriminate|]. exists p_shr4, c, [200].
  split; [apply sty_progb_ok; vm_compute; reflexivity|]. split; [exact A|]. split; [vm_compute; reflexivity|exact B].
Qed.
Print Assumptions C21_shift_execution_refuted.

(** C22: subtraction of annotated operands always has a satisfying assignment, the honest one, and it carries (x - y) mod 2^w ... *)
Theorem C22_subtraction_partial : forall (PF : PrimeField) ext (w : env) rho G (s : st) a l r x y u s' em, (3 <= required_bits)%nat ->
  wt G (ZUBin a USub l r) -> sem rho l = Some (VU x) -> sem rho r = Some (VU y) ->
  cache_ok w True s -> lay_ok w rho G s -> flat (ZUBin a USub l r) s = Some (u, s', em) -> Forall (hon (exec_solver ext) w) em ->
  Forall (fsat w) em /\ fval (feval w (getf u)) mod 2 ^ Z.of_nat (uw a) = (x - y) mod 2 ^ Z.of_nat (uw a).
Proof.
  intros PF ext w rho G s a l r x y u s' em Hr Hw Hx Hy Hc Hl E Hh.
  assert (Hs : sem rho (ZUBin a USub l r) = Some (VU ((x - y) mod 2 ^ Z.of_nat (uw a)))) by (cbn [sem sem_uop]; rewrite Hx, Hy; reflexivity).
  assert (Hf : Forall (fsat w) em) by (eapply (C19_uint_expressions_honest PF ext w rho G s _ u s' em a); eauto; rewrite Hs; discriminate).
  split; [exact Hf|].
  assert (HP : exists v, sem rho (ZUBin a USub l r) = Some v /\ ures w (ZUBin a USub l r) v u).
  { refine (proj2 (ok_honest PF ext w rho G True _ _ _ (flat_ok ext w True rho G Hr (ZUBin a USub l r) True Hw (sem_divs rho _ _) _) I s u s' em Hc Hl E Hh)); [rewrite Hs; discriminate|].
    intros _ _. rewrite Hs. discriminate. }
  destruct HP as [v [Hv Hu]]. rewrite Hs in Hv. injection Hv as <-. apply (ures_KU w (ZUBin a USub l r) _ _ a eq_refl) in Hu as [n [En [Hu _]]]. injection En as En; subst n.
  pose proof (wt_kind _ _ Hw) as Ha. destruct Ha as [_ [_ Ha]]. destruct Hu as [N [H1 [H2 [H3 H4]]]]. pose proof (ubound_le a). rewrite H4, fval_of_Z_small by lia. exact H3.
Qed.
Print Assumptions C22_subtraction_partial.
Example C22_nonvacuous : ex_run (ZUBin (U (m32 + 2 ^ 32) SRTrue) USub (ZUVal (U m32 SRFalse) 0) (va SRFalse)) m32.
Proof. exact C19_nonvacuous. Qed.
(** ... but the annotation is wrong when the right operand's maximum has all but one of the bits of the field:
      def main(private u64 x, private u64 y) -> u64 { return x - y * y * y * 2305843009213693952; }
    The optimiser computes the maximum with the offset 2^64, the code generator adds 2^253. *)
Definition p_sub : @zprog bn254 :=
  mkZProg [mkZParam 1 (PU_ 64) true; mkZParam 2 (PU_ 64) true]
    [ZReturn [ZUBin (W 64) USub (uid 64 1) (ZUBin (W 64) UMul (ZUBin (W 64) UMul (ZUBin (W 64) UMul (uid 64 2) (uid 64 2)) (uid 64 2)) (ulit 64 (2 ^ 61)))]] 1.
Theorem C22_subtraction_refuted : exists (p : @zprog bn254) c, sty_prog p /\ compiled p = Some c /\
  source_result p [5; 0] = Some [5] /\ run_prog c [5; 0] = None /\ source_result p [5; 1] = Some [5 - 2 ^ 61 + 2 ^ 64] /\ run_prog c [5; 1] = None.
Proof.
  destruct (run_compiled_ok p_sub [5; 0] None) as [c [A B]]; [vm_compute; reflexivity|discriminate|].
  destruct (run_compiled_ok p_sub [5; 1] None) as [c' [A' B']]; [vm_compute; reflexivity|discriminate|]. rewrite A in A'. injection A' as <-. exists p_sub, c.
  split; [apply sty_progb_ok; vm_compute; reflexivity|]. split; [exact A|]. split; [vm_compute; reflexivity|]. split; [exact B|]. split; [vm_compute; reflexivity|exact B'].
Qed.
Print Assumptions C22_subtraction_refuted.

(** C42 is false. In
      def main(private u8 a, private u8 b) -> (u8, field) { return (a - b, if a < b { 1 } else { 0 }); }
    the subtraction stores the 8 lowest bits of 2^8 + a - b under that key; the comparison, which wants the 9th bit of
    the same expression, finds them, pads them with a zero and always answers `a < b`. *)
Definition lt_field : @zexp bn254 := ZCond KF (ZCmp CULt (uid 8 1) (uid 8 2)) (ZFVal (of_Z 1)) (ZFVal f0).
Definition p_cache : @zprog bn254 :=
  mkZProg [mkZParam 1 (PU_ 8) true; mkZParam 2 (PU_ 8) true] [ZReturn [ZUBin (W 8) USub (uid 8 1) (uid 8 2); lt_field]] 2.
Theorem C42_cached_bits_refuted : exists (p : @zprog bn254) c, sty_prog p /\ compiled p = Some c /\
  source_result p [5; 3] = Some [2; 0] /\ run_prog c [5; 3] = Some [Some 2; Some 1].
Proof.
  destruct (run_compiled_ok p_cache [5; 3] (Some [Some 2; Some 1])) as [c [A B]]; [vm_compute; reflexivity|discriminate|]. exists p_cache, c.
  split; [apply sty_progb_ok; vm_compute; reflexivity|]. split; [exact A|]. split; [vm_compute; reflexivity|exact B].
Qed.
Print Assumptions C42_cached_bits_refuted.
(** With the comparison first, the subtraction finds 9 bits, forces the highest to 0, and the program cannot be executed
    when a >= b. *)
Definition p_cache2 : @zprog bn254 :=
  mkZProg [mkZParam 1 (PU_ 8) true; mkZParam 2 (PU_ 8) true] [ZReturn [lt_field; ZUBin (W 8) USub (uid 8 1) (uid 8 2)]] 2.
Theorem C42_execution_refuted : exists (p : @zprog bn254) c, sty_prog p /\ compiled p = Some c /\
  source_result p [5; 3] = Some [0; 2] /\ run_prog c [5; 3] = None.
Proof.
  destruct (run_compiled_ok p_cache2 [5; 3] None) as [c [A B]]; [vm_compute; reflexivity|discriminate|]. exists p_cache2, c.
  split; [apply sty_progb_ok; vm_compute; reflexivity|]. split; [exact A|]. split; [vm_compute; reflexivity|exact B].
Qed.
Print Assumptions C42_execution_refuted.
