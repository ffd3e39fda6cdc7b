(** C52: from a program with functions, loops and reassigned variables to the constraints.
    Models: zokrates_analysis/src/lib.rs l.124-219 (the order of the passes), zokrates_core/src/compile.rs l.150-200. *)
From Coq Require Import String Ascii.
From Coq Require Import ZArith NArith List Bool Lia Permutation.
From Verif Require Import Typed Writes Src SrcTy TProp TPropOk TPropProg PropTProp Reduce ReduceRen Lower PropReduce ReduceOnce.
From Verif Require Import PField SMap Concrete IR IRSpec Interp Bits Optimizer OptimizerProofs OptPipeline OptExtra Flat Zir Codegen CgProg CgEnd CgCheck PropIR Primality CgExamples PropCodegen UintOpt Panic DeadCode NoFail PropCompile Source PropSource PropChecked ZProp ZPropStmt PropFold UintCheck PropUint
  Str Abi Typed Flatten FlattenOps FlattenSim FlattenRun FlattenEnd Enforce PropTyped Writes Redefine WritesVal WritesExp WritesChoose WritesRun WritesEnd WritesWf Bounds PropWrites PropWEnd.
Import ListNotations.
Open Scope Z_scope.

(** The types of the arguments of a program *)
Definition arg_types {PF : PrimeField} (p : sprog) : list cty := map (fun a => snd (fst a)) (sargs p).
(** The program and its functions: well typed; arguments with different names; no assignment x = e with a slice in e that mentions x (C50 shows that this is needed).
    Two clauses below need in addition that calls stand alone ([calls_apart]; see C50_dropped_call_refuted). *)
Definition source_ok {PF : PrimeField} (funs : ftable) (p : sprog) : Prop := table_ok funs /\ no_self_slice funs p /\ src_typed p /\ NoDup (map (fun a => fst (fst a)) (sargs p)).
(** The passes of the compiler, in order: reduction (q), constant propagation (q'), constant arguments (w), out-of-bounds check, removal of partial
    assignments, condition variables and flattening (z), constant propagation (p1), panics, dead code and integer optimisation (p2), constraints (c). *)
Definition built {PF : PrimeField} (funs : ftable) (n : nat) (p q q' : sprog) (w : wprog) (z p1 p2 : zprog) (c : prog) : Prop :=
  reduce funs n p = Some q /\ propagate_typed q = Some q' /\ Lower.lower q' = Some w /\ bounds_ok w = true /\ wbuilt w z p1 p2 c.
(** Checks on the intermediate program, both computable: partial assignments in the class of C48, no cast between integers. *)
Definition middle_ok {PF : PrimeField} (w : wprog) : Prop := forallb safe_write (wbody w) = true /\ wuncast w.

Lemma nodup_left : forall (A : Type) (a b : list A), NoDup (a ++ b) -> NoDup a.
Proof. intros A a b. induction a as [|x a IH]; intros N; [constructor|]. cbn [app] in N. inversion N as [|? ? N1 N2]; subst. constructor; [intros I; apply N1, in_or_app; left; exact I|exact (IH N2)]. Qed.
Arguments nodup_left {A}.
Lemma lower_args : forall (PF : PrimeField) q w, Lower.lower q = Some w -> map pty (wargs w) = arg_types q /\ wretty w = sretty q.
Proof.
  intros PF q w H. unfold Lower.lower in H. destruct (mapO low_stmt (sbody q)); [|discriminate H]. destruct (Lower.low (sret q)); [|discriminate H]. injection H as <-. cbn [wargs wretty]. split; [|reflexivity]. unfold arg_types. rewrite map_map. reflexivity.
Qed.
(** what the front end guarantees about the program given to the write remover *)
Lemma front : forall (PF : PrimeField) funs n p q q' w, source_ok funs p -> reduce funs n p = Some q -> propagate_typed q = Some q' -> Lower.lower q' = Some w -> middle_ok w ->
  wsafe w /\ map pty (wargs w) = arg_types p /\ wretty w = sretty p /\
  forall vs k, Forall2 has_type vs (arg_types p) -> (forall v lg, srun (scall funs k) p vs = Ok (v, lg) -> exists lgr, wrun w vs = Ok (v, lgr) /\ sublog lgr lg /\ (calls_apart funs p -> lgr = lg)) /\
    (bounds_ok w = true -> calls_apart funs p -> srun (scall funs k) p vs = Failed -> wfails_k true w vs).
Proof.
  intros PF funs n p q q' w [TO [NS [W Na]]] R P L [Sw _]. destruct (C50_flat PF funs n p q TO NS W R) as [Wq [Aq [Tq Fq]]]. destruct (C49_typed PF q q' Wq (flat_no_for PF q Fq) P) as [Wq' [Aq' Tq']]. destruct (lower_args PF q' w L) as [La Lr].
  assert (Ea : arg_types q' = arg_types p) by (unfold arg_types; rewrite Aq', Aq; reflexivity). destruct Wq' as [G [S [X Xr]]].
  assert (TN : table_once funs) by (intros f gs ts t gens ps body ret H; destruct (TO _ _ _ _ _ H) as [_ [_ [_ [N _]]]]; exact (nodup_left _ _ N)). pose proof (propagate_once q q' (reduce_once funs TN n p q Na R) P) as On. destruct (lower_typed q' w S G X Xr On L) as [Wt Nn].
  split; [split; [exact Wt|split; [exact Nn|exact Sw]]|]. split; [rewrite La; exact Ea|]. split; [rewrite Lr, Tq', Tq; reflexivity|]. intros vs k Tv. split.
  - intros v lg H. destruct (reduce_ok PF funs n p q TO NS W R) as [_ [_ [_ [_ A]]]]. destruct (A k vs Tv) as [A1 _]. destruct (A1 v lg H) as [lgr [A2 [A3 A4]]]. exists lgr. split; [|split; assumption]. rewrite (lower_run q' w vs L). assert (Tq0 : Forall2 has_type vs (map (fun a => snd (fst a)) (sargs q))) by (rewrite Aq; exact Tv). exact (proj1 (C49_runs PF q q' vs Wq (flat_no_for PF q Fq) P Tq0) v lgr A2).
  - intros Bo CA H. destruct (C50_propagated_partial PF funs n p q q' k vs TO NS CA W R P Tv) as [_ B]. apply (lower_fails q' w S vs G X L Bo); [|exact (B H)]. change (Forall2 has_type vs (arg_types q')). rewrite Ea. exact Tv.
Qed.
(** Whatever satisfies the constraints carries arguments of the declared types; if the program has a result on them the outputs are that result, and the program does not
    violate an assertion, nor write out of bounds, nor call a built-in function outside its domain on them. The last part needs that elimination of dead code has not
    dropped a call of a built-in function with a restricted domain ([checks_kept]; see C57_dropped_check_refuted in PropDropped.v). *)
Theorem C52_sound : forall (PF : PrimeField) funs n p q q' w z p1 p2 c (a : env), (131 <= required_bits)%nat -> source_ok funs p -> built funs n p q q' w z p1 p2 c -> middle_ok w ->
  max_ok_prog p2 -> unpacks_checked p2 -> cache_safe p2 -> satisfies a c ->
  exists vs, Forall2 has_type vs (arg_types p) /\ map (fun x => a (pid x)) (pargs c) = encode_values vs /\
    (checks_kept p1 = true -> calls_apart funs p -> forall k, srun (scall funs k) p vs <> Failed) /\
    forall k v lg, srun (scall funs k) p vs = Ok (v, lg) -> map (fun i => a (vpub i)) (seq 0 (prim_count (sretty p))) = encode v.
Proof.
  intros PF funs n p q q' w z p1 p2 c a Hr So [R [P [L [Bo Wb]]]] M Hm Hu Hca Hs. destruct (front PF funs n p q q' w So R P L M) as [Ws [Ea [Er Q]]]. destruct (C51_sound PF w z p1 p2 c a Hr Ws (proj2 M) Wb Hm Hu Hca Hs) as [vs [V1 [V2 [_ [V3 V4]]]]].
  rewrite Ea in V1. rewrite Er in V4. exists vs. split; [exact V1|]. split; [exact V2|]. split.
  - intros Nr CA k H. exact (V3 Nr (proj2 (Q vs k V1) Bo CA H)).
  - intros k v lg H. destruct (proj1 (Q vs k V1) v lg H) as [lgr [Hq _]]. exact (proj1 (V4 v lgr Hq)).
Qed.
Print Assumptions C52_sound.
Theorem C52_optimized_sound : forall (PF : PrimeField) ext (hash : stmt -> Z) funs n p q q' w z p1 p2 c c' s4 (a : env), (131 <= required_bits)%nat -> source_ok funs p -> built funs n p q q' w z p1 p2 c -> middle_ok w ->
  max_ok_prog p2 -> unpacks_checked p2 -> cache_safe p2 ->
  optimize_4 (exec_solver ext) (pargs c) (pret c) (flat_stmts (pstmts c)) = Some s4 -> (forall s t, In s s4 -> In t s4 -> hash s = hash t -> strip s = strip t) ->
  optimize (exec_solver ext) hash c = Some c' -> satisfies a c' ->
  exists vs, Forall2 has_type vs (arg_types p) /\ map (fun x => a (pid x)) (pargs c') = encode_values vs /\
    (checks_kept p1 = true -> calls_apart funs p -> forall k, srun (scall funs k) p vs <> Failed) /\
    forall k v lg, srun (scall funs k) p vs = Ok (v, lg) -> map (fun i => a (vpub i)) (seq 0 (prim_count (sretty p))) = encode v.
Proof.
  intros PF ext hash funs n p q q' w z p1 p2 c c' s4 a Hr So [R [P [L [Bo Wb]]]] M Hm Hu Hca H4 Hh Ho Hs. destruct (front PF funs n p q q' w So R P L M) as [Ws [Ea [Er Q]]]. destruct (C51_optimized_sound PF ext hash w z p1 p2 c c' s4 a Hr Ws (proj2 M) Wb Hm Hu Hca H4 Hh Ho Hs) as [vs [V1 [V2 [_ [V3 V4]]]]].
  rewrite Ea in V1. rewrite Er in V4. exists vs. split; [exact V1|]. split; [exact V2|]. split.
  - intros Nr CA k H. exact (V3 Nr (proj2 (Q vs k V1) Bo CA H)).
  - intros k v lg H. destruct (proj1 (Q vs k V1) v lg H) as [lgr [Hq _]]. exact (V4 v lgr Hq).
Qed.
Print Assumptions C52_optimized_sound.
(** If the program has a result on the arguments, computing the witness succeeds, and decoding the outputs gives that result. *)
Theorem C52_complete : forall (PF : PrimeField) ext funs n p q q' w z p1 p2 c k vs v lg, (131 <= required_bits)%nat -> source_ok funs p -> built funs n p q q' w z p1 p2 c -> middle_ok w ->
  max_ok_prog p2 -> cache_clean p2 -> Forall2 has_type vs (arg_types p) -> srun (scall funs k) p vs = Ok (v, lg) ->
  exists a logs lz lgr, exec_prog (exec_solver ext) (pargs c) (flat_stmts (pstmts c)) (encode_values vs) = Done a logs /\ sublog lgr lg /\ (calls_apart funs p -> lgr = lg) /\ Permutation lz (map zentry lgr) /\ sublog logs lz /\
    map (fun i => sget (vpub i) a) (seq 0 (prim_count (sretty p))) = map Some (encode v) /\ has_type v (sretty p) /\ (no_empty (sretty p) -> decode (sretty p) (encode v) = Some v).
Proof.
  intros PF ext funs n p q q' w z p1 p2 c k vs v lg Hr So [R [P [L [Bo [W1 [W2 [W3 W4]]]]]]] M Hm Hca Tv H. destruct (front PF funs n p q q' w So R P L M) as [Ws [Ea [Er Q]]]. destruct (proj1 (Q vs k Tv) v lg H) as [lgr [Hw [Hl Hca']]]. rewrite <- Ea in Tv.
  destruct (C51_complete PF ext w z vs v lgr Hr Ws W1 Tv Hw) as [p1' [p2' [X1 [Y1 Y2]]]]. rewrite W2 in X1. injection X1 as <-. rewrite W3 in Y1. injection Y1 as <-. destruct (Y2 Hm Hca c W4) as [a [logs [lz [outs [A [B [D [E [F [G J]]]]]]]]]]. subst outs. rewrite Er in *.
  exists a, logs, lz, lgr. split; [exact A|]. split; [exact Hl|]. split; [exact Hca'|]. split; [exact B|]. split; [exact D|]. split; [exact E|]. split; [exact G|exact J].
Qed.
Print Assumptions C52_complete.
Theorem C52_optimized_complete : forall (PF : PrimeField) ext (hash : stmt -> Z) funs n p q q' w z p1 p2 c k vs v lg, (131 <= required_bits)%nat -> source_ok funs p -> built funs n p q q' w z p1 p2 c -> middle_ok w ->
  max_ok_prog p2 -> cache_clean p2 -> Forall2 has_type vs (arg_types p) -> srun (scall funs k) p vs = Ok (v, lg) ->
  exists s4, optimize_4 (exec_solver ext) (pargs c) (pret c) (flat_stmts (pstmts c)) = Some s4 /\
  ((forall s t, In s s4 -> In t s4 -> hash s = hash t -> strip s = strip t) ->
   exists c' a logs, optimize (exec_solver ext) hash c = Some c' /\ exec_prog (exec_solver ext) (pargs c') (flat_stmts (pstmts c')) (encode_values vs) = Done a logs /\
     map (fun i => sget (vpub i) a) (seq 0 (prim_count (sretty p))) = map Some (encode v) /\ incl logs (map zentry lg)).
Proof.
  intros PF ext hash funs n p q q' w z p1 p2 c k vs v lg Hr So [R [P [L [Bo Wb]]]] M Hm Hca Tv H. destruct (front PF funs n p q q' w So R P L M) as [Ws [Ea [Er Q]]]. destruct (proj1 (Q vs k Tv) v lg H) as [lgr [Hw [Hl Hca']]]. rewrite <- Ea in Tv. rewrite <- Er.
  destruct (C51_optimized_complete PF ext hash w z p1 p2 c vs v lgr Hr Ws (proj2 M) Wb Hm Hca Tv Hw) as [s4 [X1 X2]]. exists s4. split; [exact X1|]. intros Hh. destruct (X2 Hh) as [c' [a [logs [Y1 [Y2 [Y3 Y4]]]]]]. exists c', a, logs. split; [exact Y1|]. split; [exact Y2|]. split; [exact Y3|]. intros e I. apply Y4, in_map_iff in I as [e' [<- I]]. apply in_map. exact (sublog_in _ _ _ Hl e' I).
Qed.
Print Assumptions C52_optimized_complete.

(** ** The program [mn] of C50: functions, generics, loops, slices, assignments to parts. *)
Definition fulls (funs : @ftable bn254) (n : nat) (p : @sprog bn254) : bool :=
  match reduce funs n p with
  | Some q => match propagate_typed q with
      | Some q' => match Lower.lower q' with Some w => bounds_ok w && forallb safe_write (wbody w) && fullw w | None => false end
      | None => false
      end
  | None => false
  end.
Definition uncasts (funs : @ftable bn254) (n : nat) (p : @sprog bn254) : Prop :=
  match reduce funs n p with Some q => match propagate_typed q with Some q' => match Lower.lower q' with Some w => wuncast w | None => False end | None => False end | None => False end.
(** elimination of dead code drops a built-in function that may reject its argument *)
Definition drops_check (funs : @ftable bn254) (n : nat) (p : @sprog bn254) : bool :=
  match reduce funs n p with Some q => match propagate_typed q with Some q' => match Lower.lower q' with Some w => match wcompile w with Some z => match propagate z with Some p1 => negb (checks_kept p1) | None => false end | None => false end | None => false end | None => false end | None => false end.
Lemma fulls_ok : forall funs n p, fulls funs n p = true -> uncasts funs n p ->
  exists q q' w z p1 p2 c, built funs n p q q' w z p1 p2 c /\ middle_ok w /\ closed_prog p1 = true /\ max_ok_prog p2 /\ cache_clean p2 /\ unpacks_checked p2 /\ cache_safe p2 /\ (drops_check funs n p = false -> checks_kept p1 = true).
Proof.
  intros funs n p H U. unfold fulls, uncasts, drops_check in *. destruct (reduce funs n p) as [q|] eqn:R; [|discriminate H]. destruct (propagate_typed q) as [q'|] eqn:P; [|discriminate H]. destruct (Lower.lower q') as [w|] eqn:L; [|discriminate H].
  apply andb_prop in H as [Hb H]. apply andb_prop in Hb as [Hb Hs]. unfold fullw in H. destruct (wcompile w) as [z|] eqn:E; [|discriminate H]. unfold fullb in H. destruct (propagate z) as [p1|] eqn:Ep; [|discriminate H]. apply andb_prop in H as [H0 H]. destruct (analyse p1) as [p2|] eqn:Ea; [|discriminate H].
  destruct (compile p2) as [c|] eqn:Ec; [|rewrite andb_false_r in H; discriminate H]. rewrite andb_true_r in H. apply andb_prop in H as [H1 H2]. pose proof (cleanb_checked p2 H2) as Hu. destruct (cleanb_ok p2 H2) as [X Y]. exists q, q', w, z, p1, p2, c.
  split; [repeat split; try assumption; reflexivity|]. split; [split; assumption|]. split; [exact H0|]. split; [apply max_ok_progb_ok; exact H1|]. split; [exact X|]. split; [exact Hu|]. split; [exact Y|]. intros N. apply negb_false_iff in N. exact N.
Qed.
(** [mn] without its last assertion, which uses a built-in function *)
Definition mn2 : @sprog bn254 := mkSProg (sargs mn) (firstn 4 (sbody mn)) (sret mn) (sretty mn).
Lemma mn2_typed : src_typed mn2.
Proof. split; [repeat constructor|]. eexists. unfold mn2, mn, ty3, ty2, nf, n32. cbn [sbody sargs sret sretty firstn]. split; stype. Qed.
Example C52_nonvacuous : (131 <= @required_bits bn254)%nat /\ source_ok fs mn2 /\ calls_apart fs mn2 /\
  (exists q q' w z p1 p2 c, built fs 20 mn2 q q' w z p1 p2 c /\ middle_ok w /\ closed_prog p1 = true /\ max_ok_prog p2 /\ cache_clean p2 /\ unpacks_checked p2 /\ cache_safe p2 /\ checks_kept p1 = true) /\
  (exists q q' w z p1 p2 c, built fs 20 mn q q' w z p1 p2 c /\ middle_ok w /\ closed_prog p1 = true /\ max_ok_prog p2 /\ cache_clean p2 /\ unpacks_checked p2 /\ cache_safe p2 /\ checks_kept p1 = true) /\
  Forall2 has_type (mi 1 3) (arg_types mn2) /\ shown (srun (scall fs 5) mn2 (mi 1 3)) = Some ([60], [(7, [2]); (7, [8]); (7, [16]); (7, [48]); (7, [60])]) /\ srun (scall fs 5) mn2 (mi 1 0) <> Failed /\ srun (scall fs 5) mn2 (mi ((@pp bn254 - 5) / 2) 1) = Failed.
Proof.
  destruct mn_meets as [A [[B1 _] [[C1 _] [D [_ F]]]]]. split; [apply Nat.leb_le; vm_compute; reflexivity|]. split; [split; [exact A|split; [split; [exact B1|reflexivity]|split; [exact mn2_typed|repeat (constructor; [intros J; cbn in J; intuition discriminate|]); constructor]]]|]. split; [split; [exact C1|reflexivity]|]. split; [|split; [|split; [exact F|]]].
  - assert (H : fulls fs 20 mn2 = true) by (vm_compute; reflexivity). assert (U : uncasts fs 20 mn2) by (vm_compute; repeat (first [exact Logic.I|intro; discriminate|split])). destruct (fulls_ok fs 20 mn2 H U) as [q [q' [w [z [p1 [p2 [c [X1 [X2 [X3 [X4 [X5 [Xu [X6 X7]]]]]]]]]]]]]]. exists q, q', w, z, p1, p2, c. repeat (split; [assumption|]). apply X7. vm_compute. reflexivity.
  - assert (H : fulls fs 20 mn = true) by (vm_compute; reflexivity). assert (U : uncasts fs 20 mn) by (vm_compute; repeat (first [exact Logic.I|intro; discriminate|split])). destruct (fulls_ok fs 20 mn H U) as [q [q' [w [z [p1 [p2 [c [X1 [X2 [X3 [X4 [X5 [Xu [X6 X7]]]]]]]]]]]]]]. exists q, q', w, z, p1, p2, c. repeat (split; [assumption|]). apply X7. vm_compute. reflexivity.
  - split; [vm_compute; reflexivity|]. split; [vm_compute; intros J; discriminate J|vm_compute; reflexivity].
Qed.
