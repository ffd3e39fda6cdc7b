(** C55: programs in which no unsigned integer is left once constants are propagated (fields, booleans, and whatever unsigned integers
    serve as loop bounds, indices and other compile-time constants): the constraints say exactly what the program says, with none of the
    side conditions of C41, C47, C51 and C52 on the compiler's intermediate programs.
    [no_uint p1] (NoUint.v) is computable. [built], [source_ok], [middle_ok], [arg_types]: see PropSrcEnd.v. *)
From Coq Require Import String Ascii.
From Coq Require Import ZArith NArith List Bool Lia Permutation.
From Verif Require Import Typed Writes Src SrcTy TProp TPropOk TPropProg PropTProp Reduce ReduceRen Lower PropReduce ReduceOnce.
From Verif Require Import PField SMap Concrete IR IRSpec Interp Bits Optimizer OptimizerProofs OptPipeline OptExtra Flat Zir Codegen CgProg CgEnd CgCheck PropIR Primality CgExamples PropCodegen UintOpt Panic DeadCode NoFail PropCompile Source PropSource PropChecked ZProp ZPropStmt PropFold UintCheck PropUint
  Str Abi Typed Flatten FlattenOps FlattenSim FlattenRun FlattenEnd Enforce PropTyped Writes Redefine WritesVal WritesExp WritesChoose WritesRun WritesEnd WritesWf Bounds PropWrites PropWEnd NoUint PropSrcEnd.
Import ListNotations.
Open Scope Z_scope.

(** ** The checks always succeed *)
Theorem C55_checks : forall (PF : PrimeField) p1 p2, no_uint p1 = true -> analyse p1 = Some p2 -> max_ok_prog p2 /\ cache_clean p2 /\ unpacks_checked p2 /\ cache_safe p2.
Proof. intros PF p1 p2 H E. pose proof (analyse_no_word false p1 p2 H E) as N. split; [exact (max_no_word false p2 N)|]. split; [exact (cache_no_word false p2 N)|]. split; [exact (checked_no_uint p2 N)|exact (safe_no_word false p2 N)]. Qed.
Print Assumptions C55_checks.
Lemma built_analyse : forall (PF : PrimeField) funs n p q q' w z p1 p2 c, built funs n p q q' w z p1 p2 c -> analyse p1 = Some p2.
Proof. intros PF funs n p q q' w z p1 p2 c [_ [_ [_ [_ [_ [_ [H _]]]]]]]. exact H. Qed.

(** Two values of a type with the same field elements are equal. *)
Lemma app_split : forall A (a b c d : list A), length a = length c -> a ++ b = c ++ d -> a = c /\ b = d.
Proof.
  intros A. induction a as [|x a IH]; intros b [|y c] d L E; try discriminate L; [split; [reflexivity|exact E]|]. cbn [app] in E. injection E as -> E. destruct (IH b c d) as [-> ->]; [injection L as L; exact L|exact E|]. split; reflexivity.
Qed.
Lemma encode_unique : forall (PF : PrimeField), wide -> forall t v u, has_type v t -> has_type u t -> encode v = encode u -> v = u.
Proof.
  intros PF W. induction t as [| |w|ty n IH|ts IH|ms IH|] using cty_ind'; intros v u Hv Hu E; destruct v; try (cbn in Hv; contradiction); destruct u; try (cbn in Hu; contradiction).
  - cbn [encode] in E. injection E as ->. reflexivity.
  - destruct b, b0; try reflexivity; exfalso; apply (f_equal (fun l => fval (hd f0 l))) in E.
    + change (fval f1 = fval f0) in E. rewrite fval_f1, fval_f0 in E. discriminate E.
    + change (fval f0 = fval f1) in E. rewrite fval_f1, fval_f0 in E. discriminate E.
  - cbn in Hv, Hu. destruct Hv as [<- Hv]. destruct Hu as [<- Hu]. apply (f_equal (fun l => fval (hd f0 l))) in E. change (fval (of_Z n) = fval (of_Z n0)) in E. rewrite (width_fits _ n W Hv), (width_fits _ n0 W Hu) in E. rewrite E. reflexivity.
  - apply type_array in Hv as [L1 Hv]. apply type_array in Hu as [L2 Hu]. f_equal. cbn [encode] in E. subst n. revert l0 L2 Hu E. induction Hv as [|v l Tv Tl IHl]; intros [|u l0] L2 Hu E; try discriminate L2; [reflexivity|]. inversion Hu as [|? ? Tu Tl0]; subst. cbn [flat_map] in E.
    apply app_split in E as [E1 E2]; [|rewrite (encode_length _ _ Tv), (encode_length _ _ Tu); reflexivity]. rewrite (IH v u Tv Tu E1), (IHl l0); [reflexivity|injection L2 as L2; exact L2|exact Tl0|exact E2].
  - apply type_tuple in Hv. apply type_tuple in Hu. f_equal. cbn [encode] in E. revert l0 Hu E IH. induction Hv as [|v t l ts Tv Tl IHl]; intros l0 Hu E IH; inversion Hu as [|u t' l1 ts' Tu Tl0]; subst; [reflexivity|]. inversion IH as [|? ? I1 I2]; subst. cbn [flat_map] in E.
    apply app_split in E as [E1 E2]; [|rewrite (encode_length _ _ Tv), (encode_length _ _ Tu); reflexivity]. rewrite (I1 v u Tv Tu E1), (IHl l1 Tl0 E2 I2). reflexivity.
  - apply type_struct in Hv. apply type_struct in Hu. f_equal. cbn [encode] in E. revert l0 Hu E IH. induction Hv as [|[k v] [k' t] l ts [Kv Tv] Tl IHl]; intros l0 Hu E IH; inversion Hu as [|[ku u] t' l1 ts' [Ku Tu] Tl0]; subst; [reflexivity|]. inversion IH as [|? ? I1 I2]; subst. cbn [flat_map fst snd] in *. subst.
    apply app_split in E as [E1 E2]; [|rewrite (encode_length _ _ Tv), (encode_length _ _ Tu); reflexivity]. rewrite (I1 v u Tv Tu E1), (IHl l1 Tl0 E2 I2). reflexivity.
Qed.
Lemma encode_values_unique : forall (PF : PrimeField), wide -> forall ts vs us, Forall2 has_type vs ts -> Forall2 has_type us ts -> encode_values vs = encode_values us -> vs = us.
Proof.
  intros PF W ts vs us Hv Hu E. assert (H : VTuple vs = VTuple us) by (apply (encode_unique PF W (CTuple ts)); [apply type_tuple; exact Hv|apply type_tuple; exact Hu|exact E]). injection H as ->. reflexivity.
Qed.

(** ** The constraints *)
(** On arguments vs on which the program has the result v: the witness is computed, its outputs are v, and every assignment satisfying the
    constraints with these arguments has the outputs v. On arguments on which it fails, no assignment satisfies the constraints. *)
Definition says_exactly {PF : PrimeField} (ext : Z -> list F -> option (list F)) (funs : ftable) (p : sprog) (rej : bool) (c : prog) : Prop :=
  forall vs k, Forall2 has_type vs (arg_types p) ->
  (forall v lg, srun (scall funs k) p vs = Ok (v, lg) ->
     (exists a logs, exec_prog (exec_solver ext) (pargs c) (flat_stmts (pstmts c)) (encode_values vs) = Done a logs /\ incl logs (map zentry lg) /\
        map (fun i => sget (vpub i) a) (seq 0 (prim_count (sretty p))) = map Some (encode v)) /\
     (forall a : env, satisfies a c -> map (fun x => a (pid x)) (pargs c) = encode_values vs -> map (fun i => a (vpub i)) (seq 0 (prim_count (sretty p))) = encode v)) /\
  (rej = false -> calls_apart funs p -> srun (scall funs k) p vs = Failed -> forall a : env, satisfies a c -> map (fun x => a (pid x)) (pargs c) <> encode_values vs).
(** [dropping p1]: elimination of dead code drops a call of a built-in function that may reject its argument (unpack) *)
Definition dropping {PF : PrimeField} (p1 : zprog) : bool := negb (checks_kept p1).

Theorem C55_exact : forall (PF : PrimeField) ext funs n p q q' w z p1 p2 c, (131 <= required_bits)%nat -> source_ok funs p -> built funs n p q q' w z p1 p2 c -> middle_ok w -> no_uint p1 = true ->
  says_exactly ext funs p (dropping p1) c.
Proof.
  intros PF ext funs n p q q' w z p1 p2 c Hr So B M N vs k Tv. destruct (C55_checks PF p1 p2 N (built_analyse PF _ _ _ _ _ _ _ _ _ _ B)) as [Hm [Hc [Hu Hs]]]. pose proof (req_wide Hr) as W. split.
  - intros v lg H. split.
    + destruct (C52_complete PF ext funs n p q q' w z p1 p2 c k vs v lg Hr So B M Hm Hc Tv H) as [a [logs [lz [lgr [A1 [A0 [_ [A2 [A3 [A4 _]]]]]]]]]]. exists a, logs. split; [exact A1|]. split; [|exact A4]. intros e I. pose proof (Permutation_in e A2 (sublog_in _ _ _ A3 e I)) as J. apply in_map_iff in J as [e' [<- J]]. apply in_map. exact (sublog_in _ _ _ A0 e' J).
    + intros a Sa Ea. destruct (C52_sound PF funs n p q q' w z p1 p2 c a Hr So B M Hm Hu Hs Sa) as [us [U1 [U2 [_ U4]]]]. rewrite Ea in U2. pose proof (encode_values_unique PF W _ _ _ Tv U1 U2) as <-. exact (U4 k v lg H).
  - intros Rj CA Hf a Sa Ea. destruct (C52_sound PF funs n p q q' w z p1 p2 c a Hr So B M Hm Hu Hs Sa) as [us [U1 [U2 [U3 _]]]]. rewrite Ea in U2. pose proof (encode_values_unique PF W _ _ _ Tv U1 U2) as <-. apply negb_false_iff in Rj. exact (U3 Rj CA k Hf).
Qed.
Print Assumptions C55_exact.
(** The same of the optimised constraints; [hash] is the hash of statements used to find duplicates. *)
Theorem C55_optimized : forall (PF : PrimeField) ext (hash : stmt -> Z) funs n p q q' w z p1 p2 c c' s4, (131 <= required_bits)%nat -> source_ok funs p -> built funs n p q q' w z p1 p2 c -> middle_ok w -> no_uint p1 = true ->
  optimize_4 (exec_solver ext) (pargs c) (pret c) (flat_stmts (pstmts c)) = Some s4 -> (forall s t, In s s4 -> In t s4 -> hash s = hash t -> strip s = strip t) ->
  optimize (exec_solver ext) hash c = Some c' ->
  says_exactly ext funs p (dropping p1) c'.
Proof.
  intros PF ext hash funs n p q q' w z p1 p2 c c' s4 Hr So B M N H4 Hh Ho vs k Tv. destruct (C55_checks PF p1 p2 N (built_analyse PF _ _ _ _ _ _ _ _ _ _ B)) as [Hm [Hc [Hu Hs]]]. pose proof (req_wide Hr) as W. split.
  - intros v lg H. split.
    + destruct (C52_optimized_complete PF ext hash funs n p q q' w z p1 p2 c k vs v lg Hr So B M Hm Hc Tv H) as [s [A1 A2]]. rewrite H4 in A1. injection A1 as <-. destruct (A2 Hh) as [c1 [a [logs [B1 [B2 [B3 B4]]]]]]. rewrite Ho in B1. injection B1 as <-. exists a, logs. split; [exact B2|]. split; [exact B4|exact B3].
    + intros a Sa Ea. destruct (C52_optimized_sound PF ext hash funs n p q q' w z p1 p2 c c' s4 a Hr So B M Hm Hu Hs H4 Hh Ho Sa) as [us [U1 [U2 [_ U4]]]]. rewrite Ea in U2. pose proof (encode_values_unique PF W _ _ _ Tv U1 U2) as <-. exact (U4 k v lg H).
  - intros Rj CA Hf a Sa Ea. destruct (C52_optimized_sound PF ext hash funs n p q q' w z p1 p2 c c' s4 a Hr So B M Hm Hu Hs H4 Hh Ho Sa) as [us [U1 [U2 [U3 _]]]]. rewrite Ea in U2. pose proof (encode_values_unique PF W _ _ _ Tv U1 U2) as <-. apply negb_false_iff in Rj. exact (U3 Rj CA k Hf).
Qed.
Print Assumptions C55_optimized.

(** ** The program [mn2] of C52: functions with generics, loops, slices, assignments to an element; unsigned integers occur in it (generics, indices, bounds) but none is left. *)
Definition left_over (funs : @ftable bn254) (n : nat) (p : @sprog bn254) : option bool :=
  match reduce funs n p with Some q => match propagate_typed q with Some q' => match Lower.lower q' with Some w => match wcompile w with Some z => match propagate z with Some p1 => Some (no_uint p1) | None => None end | None => None end | None => None end | None => None end | None => None end.
Lemma left_over_ok : forall funs n p q q' w z p1 p2 c, left_over funs n p = Some true -> built funs n p q q' w z p1 p2 c -> no_uint p1 = true.
Proof. intros funs n p q q' w z p1 p2 c H [A [B [C [_ [D [E _]]]]]]. unfold left_over in H. rewrite A, B, C, D, E in H. injection H as H. exact H. Qed.
Example C55_nonvacuous : (131 <= @required_bits bn254)%nat /\ source_ok PropReduce.fs mn2 /\ calls_apart PropReduce.fs mn2 /\ exists q q' w z p1 p2 c, built PropReduce.fs 20 mn2 q q' w z p1 p2 c /\ middle_ok w /\ no_uint p1 = true /\ dropping p1 = false.
Proof.
  destruct C52_nonvacuous as [A [B [B2 [[q [q' [w [z [p1 [p2 [c [X1 [X2 [_ [_ [_ [_ [_ X7]]]]]]]]]]]]]] _]]]]. split; [exact A|]. split; [exact B|]. split; [exact B2|]. exists q, q', w, z, p1, p2, c. split; [exact X1|]. split; [exact X2|]. split; [|apply negb_false_iff; exact X7].
  assert (L : left_over PropReduce.fs 20 mn2 = Some true) by (vm_compute; reflexivity). exact (left_over_ok PropReduce.fs 20 mn2 q q' w z p1 p2 c L X1).
Qed.

(** C42, positive part: when no cached decomposition was reused inexactly (longer than needed, or shorter and
    padded: [cache_clean], decided on the generated code), the circuit means the program, whatever was reused. *)
Theorem C42_meaning_partial : forall (PF : PrimeField) ext p c (inputs : list F), (3 <= required_bits)%nat ->
  wtp p -> ends_return p -> unpacks_checked p -> compile p = Some c -> cache_clean p ->
  (forall rets logs, sem_prog p inputs = Some (rets, logs) ->
     exists w, exec_prog (exec_solver ext) (pargs c) (flat_stmts (pstmts c)) inputs = Done w logs /\
               map (fun i => sget (vpub i) w) (seq 0 (zret p)) = map Some rets) /\
  (forall w : env, map (fun q => w (pid q)) (pargs c) = inputs -> safe_prog p inputs -> satisfies w c ->
     sem_prog p inputs = Some (map (fun i => w (vpub i)) (seq 0 (zret p)), logs_of w (flat_stmts (pstmts c)))).
Proof.
  intros PF ext p c inputs R W E U C K. split.
  - intros rets logs H. exact (C41_compile_complete PF ext p c inputs rets logs R W E C K H).
  - intros w <- S Hs. refine (C41_compile_sound PF p c w R W U C _ S Hs). clear - K. unfold cache_clean, cache_safe in *. destruct (codegen p) as [[? em]|]; [|exact Logic.I]. unfold no_note, no_unsafe_note in *. eapply Forall_impl; [|exact K]. intros s Hx. destruct s; auto. contradiction.
Qed.
Print Assumptions C42_meaning_partial.
(** It is so for every program in which no unsigned integer is left. *)
Theorem C42_no_uint_partial : forall (PF : PrimeField) p1 p2, no_uint p1 = true -> analyse p1 = Some p2 -> cache_clean p2.
Proof. intros PF p1 p2 H E. exact (proj1 (proj2 (C55_checks PF p1 p2 H E))). Qed.
Print Assumptions C42_no_uint_partial.
