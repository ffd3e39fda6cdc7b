(** Property theorems: inlining, unrolling and renaming (C50). *)
From Coq Require Import String.
From Coq Require Import ZArith NArith List Bool Lia.
From Verif Require Import PField Interp Bits Zir CgProg UintOpt Concrete Primality Str Abi Typed Flatten FlattenOps FlattenSim FlattenRun Writes Redefine WritesVal WritesExp ZProp ZPropStmt Src SrcTy TProp TPropOk TPropArr TPropOps TPropExp TPropStmt TPropProg PropTProp Reduce ReduceRen ReduceExp ReduceStmt ReduceSimple ReduceMain ReduceBody ReduceCall ReduceFuel.
Import ListNotations.
Open Scope Z_scope.

(** No assignment [x = e], in a function or in the program, has a slice in [e] in which [x] occurs. *)
Definition no_self_slice {PF : PrimeField} (funs : ftable) (p : sprog) : Prop :=
  (forall f gs ts t gens params body ret, funs f gs ts t = Some (Here gens params body ret) -> forallb srcok body = true) /\ forallb srcok (sbody p) = true.
(** In the functions and in the program, a call is the whole right-hand side of an assignment, the whole of an assertion, of an argument of a log or of such a call, of
    an index on the left of an assignment, of a bound of a loop or of a returned expression. *)
Definition calls_apart {PF : PrimeField} (funs : ftable) (p : sprog) : Prop :=
  (forall f gs ts t gens params body ret, funs f gs ts t = Some (Here gens params body ret) -> forallb splain body && plain ret = true) /\ forallb splain (sbody p) && plain (sret p) = true.
(** Neither calls nor loops. *)
Definition flat_src {PF : PrimeField} (p : sprog) : Prop := forallb snocalls (sbody p) = true /\ nocalls (sret p) = true.
Lemma args_src : forall (args : list (rid * cty * bool)) S y t, forallb (fun q => is_src (fst (fst q))) args = true -> cbind S (map fst args) y = Some t -> is_src y = true \/ S y = Some t.
Proof. intros args S y t H E. apply cbind_in in E as [E|E]; [left|right; exact E]. rewrite map_map in E. apply in_map_iff in E as [q [<- J]]. rewrite forallb_forall in H. exact (H q J). Qed.
Theorem reduce_ok : forall (PF : PrimeField) funs n p q, table_ok funs -> no_self_slice funs p -> src_typed p -> reduce funs n p = Some q -> src_typed q /\ sargs q = sargs p /\ sretty q = sretty p /\ flat_src q /\
  forall k vs, Forall2 has_type vs (map (fun a => snd (fst a)) (sargs p)) ->
  (forall v lg, srun (scall funs k) p vs = Ok (v, lg) -> exists lg', srun nocall q vs = Ok (v, lg') /\ sublog lg' lg /\ (calls_apart funs p -> lg' = lg)) /\ (calls_apart funs p -> srun (scall funs k) p vs = Failed -> srun nocall q vs = Failed).
Proof.
  intros PF funs n p q TO [TS Sk] [Ga [Sf [Xb Xr]]] E. set (ptable := forall f gs ts t gens params body ret, funs f gs ts t = Some (Here gens params body ret) -> forallb splain body && plain ret = true).
  destruct (reduce_good funs TO ptable TS (fun H => H) n) as [GE GT]. unfold reduce in E. destruct (forallb _ (sargs p)) eqn:Ar; [|discriminate E]. match type of E with context [rstmts_ _ _ _ ?v _] => set (V0 := v) in E end. destruct (rstmts_ (rstmt funs n 0) 0 (fun _ => None) V0 (sbody p)) as [[[[L C] V] b]|] eqn:E1; [|discriminate E]. destruct (rslice 0 V (rexp funs n 0 V) L C (sret p)) as [[[[L2 C2] b2] e]|] eqn:E2; [|discriminate E]. injection E as <-. cbn [sargs sbody sret sretty].
  set (G := cbind (fun _ => None) (map fst (sargs p))) in *. set (C0 := fun _ : rid => None : option (cty * value_)) in *.
  assert (Sr : forall y t, G y = Some t -> is_src y = true). { intros y t Y. destruct (args_src (sargs p) _ y t Ar Y) as [A|A]; [exact A|discriminate A]. }
  assert (I0 : Inv 0 C0 G). { split; [intros y t v H; discriminate H|]. split; [intros y t v H; discriminate H|]. intros y Y. split; [reflexivity|]. destruct (G y) as [t|] eqn:Gy; [|reflexivity]. specialize (Sr y t Gy). unfold is_src in Sr. rewrite !andb_true_iff, Nat.eqb_eq in Sr. lia. }
  assert (V0z : forall c, ver V0 c = O) by (intros c; unfold ver, V0; destruct (existsb _ _); reflexivity).
  assert (N0 : forall y, is_src y = true -> now 0 V0 y = y). { intros [[f c] v] H. unfold now. rewrite V0z. unfold is_src, rframe in H. cbn [fst snd] in *. rewrite !andb_true_iff, !Nat.eqb_eq in H. destruct H as [[-> ->] _]. reflexivity. }
  assert (R0 : Rel 0 V0 C0 G G). { intros y t Y. pose proof (Sr y t Y) as H. split; [exact H|]. rewrite (N0 y H). exact Y. }
  assert (Vi0 : VI 0 V0 C0 G). { intros y t _ Y. change (G y = Some t) in Y. pose proof (Sr y t Y) as H. exists O. split; [|unfold is_src in H; rewrite !andb_true_iff, !Nat.eqb_eq in H; lia]. unfold G in Y. apply cbind_in in Y as [Y|Y]; [|discriminate Y]. rewrite map_map in Y. apply in_map_iff in Y as [a [<- J]]. unfold V0. rewrite (proj2 (existsb_exists _ _)); [reflexivity|]. exists a. split; [exact J|]. apply core_eqb_ok. reflexivity. }
  destruct (stmts_post funs ptable 0 _ (GT 0%nat) _ _ _ _ _ _ _ _ _ _ _ I0 (le_n 0) R0 Vi0 Xb Sk E1) as [G1 [_ [I1 [X1 [M1 [_ [R1 [_ Sm1]]]]]]]].
  destruct (slice_ok funs TO ptable 0 V _ (GE 0%nat V) L C G1 Sf (sret p) (sretty p) L2 C2 b2 e I1 (Nat.le_0_l L) R1 Xr E2) as [G2 [O2 [X2 [M2 [_ D2]]]]]. pose proof O2 as [_ [_ [Xb2 [_ Mb2]]]].
  split; [split; [exact Ga|]; exists G2; split; [exact (app_ty _ _ _ _ _ X1 Xb2)|exact (proj1 ty_sub _ _ _ X2 _ (live_sub_g _ _))]|]. split; [reflexivity|]. split; [reflexivity|]. split; [split; [cbn [sbody]; rewrite forallb_app, M1, Mb2; reflexivity|exact M2]|].
  intros k vs T. unfold srun. cbn [sargs sbody sret]. set (r0 := rbind (fun _ => None) (map (fun q => fst (fst q)) (sargs p)) vs).
  assert (Rk0 : rok G r0). { unfold G, r0. replace (map (fun q : rid * cty * bool => fst (fst q)) (sargs p)) with (map (@fst rid cty) (map fst (sargs p))) by apply map_map. apply rbind_ok; [intros y t H; discriminate H|]. rewrite map_map. exact T. }
  assert (Vs0 : Vals 0 V0 C0 r0 G r0) by (intros y t Y; rewrite (N0 y (Sr y t Y)); reflexivity).
  destruct (Sm1 k r0 r0 Rk0 Vs0) as [P1 F1]. split.
  - intros v lg Ev. apply ok_inv in Ev as [[la ra] [Ea Ev]]. apply ok_inv in Ev as [[lb vb] [Eb Ev]]. cbn [fst snd] in *. injection Ev as <- <-. destruct (P1 _ _ Ea) as [l1 [r1 [Q1 [W1 [S1 [T1 _]]]]]]. pose proof (proj2 (exec_typed nocall nocall_ok) _ _ _ X1 _ _ _ Rk0 Q1) as Rk1. destruct (D2 k r1 ra Rk1 W1) as [P2 _]. destruct (P2 _ _ Eb) as [l2 [r2 [Q2 [Y2 [S2 [T2 _]]]]]].
    exists (l1 ++ l2). rewrite (run_app _ _ _ _ _ _ _ _ Q1 Q2). cbn [obnd fst snd]. rewrite Y2. cbn [obnd fst snd]. rewrite app_nil_r. split; [reflexivity|]. split; [apply sub_app; assumption|]. intros [Hp Hx]. apply andb_true_iff in Hx as [H1 H2]. rewrite (T1 (conj Hp H1)), (T2 (conj Hp H2)). reflexivity.
  - intros [Hp Hx] Ev. apply andb_true_iff in Hx as [H1 H2]. assert (Fl : sexecs nocall r0 (b ++ b2) = Failed); [|rewrite Fl; reflexivity]. destruct (sexecs (scall funs k) r0 (sbody p)) as [[la ra]| |] eqn:Ea; [|exact (fail_left _ _ _ _ (F1 (conj Hp H1) eq_refl))|discriminate Ev]. destruct (P1 _ _ eq_refl) as [l1 [r1 [Q1 [W1 _]]]]. pose proof (proj2 (exec_typed nocall nocall_ok) _ _ _ X1 _ _ _ Rk0 Q1) as Rk1. destruct (D2 k r1 ra Rk1 W1) as [_ F2]. apply (fail_right _ _ _ _ _ _ Q1). apply (F2 (conj Hp H2)). cbn [obnd fst snd] in Ev. destruct (seval (scall funs k) ra (sret p)); [discriminate Ev|reflexivity|discriminate Ev].
Qed.
(** A run of a program with functions and loops which has a result is a run of the reduced program, with the same result; the reduced program logs no more
    than the program. *)
Theorem C50_runs_partial : forall (PF : PrimeField) funs n p q k vs v lg, table_ok funs -> no_self_slice funs p -> src_typed p -> reduce funs n p = Some q -> Forall2 has_type vs (map (fun a => snd (fst a)) (sargs p)) ->
  srun (scall funs k) p vs = Ok (v, lg) -> exists lg', srun nocall q vs = Ok (v, lg') /\ sublog lg' lg.
Proof.
  intros PF funs n p q k vs v lg TO NS W E T Ev. destruct (reduce_ok PF funs n p q TO NS W E) as [_ [_ [_ [_ H]]]]. destruct (H k vs T) as [A _]. destruct (A v lg Ev) as [lg' [B [D _]]]. exists lg'. auto.
Qed.
Print Assumptions C50_runs_partial.
(** Where calls stand apart, the logs are the same, and a run in which an assertion is violated or a built-in function rejects its argument is one of the reduced program. *)
Theorem C50_same_runs_partial : forall (PF : PrimeField) funs n p q k vs, table_ok funs -> no_self_slice funs p -> calls_apart funs p -> src_typed p -> reduce funs n p = Some q -> Forall2 has_type vs (map (fun a => snd (fst a)) (sargs p)) ->
  (forall v lg, srun (scall funs k) p vs = Ok (v, lg) -> srun nocall q vs = Ok (v, lg)) /\ (srun (scall funs k) p vs = Failed -> srun nocall q vs = Failed).
Proof.
  intros PF funs n p q k vs TO NS CA W E T. destruct (reduce_ok PF funs n p q TO NS W E) as [_ [_ [_ [_ H]]]]. destruct (H k vs T) as [A B]. split; [|exact (B CA)]. intros v lg Ev. destruct (A v lg Ev) as [lg' [Q [_ D]]]. rewrite (D CA) in Q. exact Q.
Qed.
Print Assumptions C50_same_runs_partial.
(** ... and the reduced program accepts an input only with the result of the program, unless the program is undefined on it (an index out of bounds, a division by
    zero, calls nested deeper than the given bound). *)
Theorem C50_no_new_results_partial : forall (PF : PrimeField) funs n p q k vs v lg, table_ok funs -> no_self_slice funs p -> calls_apart funs p -> src_typed p -> reduce funs n p = Some q -> Forall2 has_type vs (map (fun a => snd (fst a)) (sargs p)) ->
  srun nocall q vs = Ok (v, lg) -> srun (scall funs k) p vs = Ok (v, lg) \/ srun (scall funs k) p vs = Stuck.
Proof.
  intros PF funs n p q k vs v lg TO NS CA W E T Ev. destruct (C50_same_runs_partial PF funs n p q k vs TO NS CA W E T) as [A B]. destruct (srun (scall funs k) p vs) as [[v' lg']| |]; [|rewrite (B eq_refl) in Ev; discriminate Ev|right; reflexivity]. rewrite (A v' lg' eq_refl) in Ev. left. exact Ev.
Qed.
Print Assumptions C50_no_new_results_partial.
(** The reduced program is well typed, has the same arguments and type of result, and has neither calls nor loops. *)
Theorem C50_flat : forall (PF : PrimeField) funs n p q, table_ok funs -> no_self_slice funs p -> src_typed p -> reduce funs n p = Some q -> src_typed q /\ sargs q = sargs p /\ sretty q = sretty p /\ flat_src q.
Proof. intros PF funs n p q TO NS W E. destruct (reduce_ok PF funs n p q TO NS W E) as [A [B [D [F _]]]]. auto. Qed.
Print Assumptions C50_flat.

(** The bound on the depth of the recursion only bounds: a reduced program does not depend on it. *)
Theorem C50_depth : forall (PF : PrimeField) funs n m p q q', reduce funs n p = Some q -> reduce funs m p = Some q' -> q = q'.
Proof.
  intros PF funs n m p q q' E E'. destruct (Nat.le_ge_cases n m) as [H|H]; [rewrite (fuel_more funs n m p q H E) in E'|rewrite (fuel_more funs m n p q' H E') in E]; congruence.
Qed.
Print Assumptions C50_depth.

(** ** The final constant propagation *)
Lemma flat_no_for : forall (PF : PrimeField) (p : sprog), flat_src p -> no_for (sbody p).
Proof.
  intros PF p [H _]. unfold no_for. rewrite forallb_forall in H. apply Forall_forall. intros s J. specialize (H s J). destruct s; try reflexivity. discriminate H.
Qed.
(** zokrates_analysis/src/lib.rs l.140-170: after the reduction the constants are propagated once more. *)
Theorem C50_propagated_partial : forall (PF : PrimeField) funs n p q q' k vs, table_ok funs -> no_self_slice funs p -> calls_apart funs p -> src_typed p -> reduce funs n p = Some q -> propagate_typed q = Some q' -> Forall2 has_type vs (map (fun a => snd (fst a)) (sargs p)) ->
  (forall v lg, srun (scall funs k) p vs = Ok (v, lg) -> srun nocall q' vs = Ok (v, lg)) /\ (srun (scall funs k) p vs = Failed -> srun nocall q' vs = Failed).
Proof.
  intros PF funs n p q q' k vs TO NS CA W E E' T. destruct (C50_flat PF funs n p q TO NS W E) as [Wq [Aq [_ Fq]]]. destruct (C50_same_runs_partial PF funs n p q k vs TO NS CA W E T) as [A B]. rewrite <- Aq in T. destruct (C49_runs PF q q' vs Wq (flat_no_for PF q Fq) E' T) as [P Q]. split.
  - intros v lg H. exact (P v lg (A v lg H)).
  - intros H. exact (Q (B H)).
Qed.
Print Assumptions C50_propagated_partial.

(** ** A concrete program
    [def low(field x) -> bool { bool[3] b = unpack(x); return b[2]; }]
    [def dot<N>(field[N] a, field k) -> field { field mut s = 0; for u32 i in 0..N { s = s + a[i] * k; log(s); } assert(s != 9); return s; }]
    [def main(private field a, field b) -> field { field[3] mut r = [a, b, 4]; r[1] = dot(r, 2); field[2] t = r[1..3]; field z = dot(t, b); assert(low(a)); return z; }] *)
Definition ty3 : cty := CArray CField 3.
Definition ty2 : cty := CArray CField 2.
Definition B3 : cty := CArray CBool 3.
Definition dot_body (n : nat) : list (@sstmt bn254) :=
  [SDef (src 4) CField (nf 0);
   SFor (src 5) (n32 0) (SId U32 (src 3))
     [SDef (src 4) CField (SOp (OFBin FAdd) [SId CField (src 4); SOp (OFBin FMul) [SOp (OSel CField) [SId (CArray CField n) (src 1); SId U32 (src 5)]; SId CField (src 2)]]);
      SLog 7 [SId CField (src 4)]];
   SAssert (SOp ONot [SOp OEq [SId CField (src 4); nf 9]]) 1].
Definition dot (n : nat) : @sfun bn254 := Here [3%nat] [(1%nat, CArray CField n); (2%nat, CField)] (dot_body n) (SId CField (src 4)).
Definition low : @sfun bn254 := Here [] [(1%nat, CField)] [SDef (src 2) B3 (SCall [CField] B3 2 [] [SId CField (src 1)])] (SOp (OSel CBool) [SId B3 (src 2); n32 2]).
Definition fs : @ftable bn254 := fun f gs ts t =>
  match f, gs, ts, t with
  | 0%nat, [3], [CArray CField 3; CField], CField => Some (dot 3)
  | 0%nat, [2], [CArray CField 2; CField], CField => Some (dot 2)
  | 1%nat, [], [CField], CBool => Some low
  | 2%nat, [], [CField], CArray CBool 3 => Some (Flat (EUnpack 3) B3)
  | _, _, _, _ => None
  end.
Lemma fs_cases : forall f gs ts t d, fs f gs ts t = Some d ->
  (exists n, (n = 3 \/ n = 2)%nat /\ gs = [Z.of_nat n] /\ ts = [CArray CField n; CField] /\ t = CField /\ d = dot n) \/ (gs = [] /\ ts = [CField] /\ t = CBool /\ d = low) \/ (gs = [] /\ ts = [CField] /\ t = B3 /\ d = Flat (EUnpack 3) B3).
Proof.
  intros f gs ts t d H. unfold fs in H. repeat (match type of H with context [match ?x with _ => _ end] => is_var x; destruct x; try discriminate H end);
    injection H as <-; first [right; right; repeat split; reflexivity|right; left; repeat split; reflexivity|left; exists 3%nat; repeat split; auto; fail|left; exists 2%nat; repeat split; auto].
Qed.
Lemma fs_ok : table_ok fs.
Proof.
  intros f gs ts t d H. destruct (fs_cases f gs ts t d H) as [[n [N [-> [-> [-> ->]]]]]|[[-> [-> [-> ->]]]|[-> [-> [-> ->]]]]].
  - split; [reflexivity|]. split; [reflexivity|]. split; [repeat constructor|]. split; [repeat (constructor; [intros J; cbn in J; intuition discriminate|]); constructor|].
    destruct N as [-> | ->]; eexists; unfold dot_body, nf, n32; split; stype.
  - split; [reflexivity|]. split; [reflexivity|]. split; [repeat constructor|]. split; [repeat (constructor; [intros J; cbn in J; intuition discriminate|]); constructor|]. eexists. unfold n32, B3. split; stype.
  - split; [reflexivity|]. split; [reflexivity|]. split; [reflexivity|]. split; [apply Nat.leb_le; vm_compute; reflexivity|apply Z.ltb_lt; vm_compute; reflexivity].
Qed.
Definition mn : @sprog bn254 := mkSProg [(src 0, CField, true); (src 1, CField, false)]
  [SDef (src 2) ty3 (SOp (OArr CField 3 [false; false; false]) [SId CField (src 0); SId CField (src 1); nf 4]);
   SSet (src 2) ty3 [SASel (n32 1)] (SCall [ty3; CField] CField 0 [n32 3] [SId ty3 (src 2); nf 2]);
   SDef (src 3) ty2 (SPar (KSlice CField 3 2) (SId ty3 (src 2)) [n32 1; n32 3]);
   SDef (src 4) CField (SCall [ty2; CField] CField 0 [n32 2] [SId ty2 (src 3); SId CField (src 1)]);
   SAssert (SCall [CField] CBool 1 [] [SId CField (src 0)]) 2]
  (SId CField (src 4)) CField.
Lemma mn_typed : src_typed mn.
Proof. split; [repeat constructor|]. eexists. unfold mn, ty3, ty2, nf, n32. cbn [sbody sargs sret sretty]. split; stype. Qed.
Definition mi (a b : Z) : list (@value_ bn254) := [VField (of_Z a); VField (of_Z b)].
(** a = 1, b = 3: dot([1, 3, 4], 2) = 16 and dot([16, 4], 3) = 60 *)
Example mn_run : match reduce fs 20 mn with
  | Some q => length (sbody q) = 23%nat /\ shown (srun (scall fs 5) mn (mi 1 3)) = Some ([60], [(7, [2]); (7, [8]); (7, [16]); (7, [48]); (7, [60])]) /\
      shown (srun nocall q (mi 1 3)) = Some ([60], [(7, [2]); (7, [8]); (7, [16]); (7, [48]); (7, [60])]) /\ srun (scall fs 5) mn (mi 2 3) = Failed /\ srun nocall q (mi 2 3) = Failed
  | None => False end.
Proof. vm_compute. auto. Qed.
Example mn_meets : table_ok fs /\ no_self_slice fs mn /\ calls_apart fs mn /\ src_typed mn /\ (exists q, reduce fs 20 mn = Some q) /\ Forall2 has_type (mi 1 3) (map (fun a => snd (fst a)) (sargs mn)).
Proof.
  split; [exact fs_ok|]. split; [split; [|reflexivity]|split; [split; [|reflexivity]|]].
  - intros f gs ts t gens params body ret H. destruct (fs_cases _ _ _ _ _ H) as [[n [_ [_ [_ [_ J]]]]]|[[_ [_ [_ J]]]|[_ [_ [_ J]]]]]; [injection J as _ _ -> _; reflexivity|injection J as _ _ -> _; reflexivity|discriminate J].
  - intros f gs ts t gens params body ret H. destruct (fs_cases _ _ _ _ _ H) as [[n [_ [_ [_ [_ J]]]]]|[[_ [_ [_ J]]]|[_ [_ [_ J]]]]]; [injection J as _ _ -> ->; reflexivity|injection J as _ _ -> ->; reflexivity|discriminate J].
  - split; [exact mn_typed|]. split; [destruct (reduce fs 20 mn) as [q|] eqn:E; [exists q; reflexivity|pose proof mn_run as H; rewrite E in H; contradiction]|]. repeat constructor.
Qed.

(** ** What does not hold *)
(** [a = a[0..3]] where [a] is a mutable array of three elements: the slice is renamed twice, the second time after the new version of [a] has been issued
    (reducer/mod.rs l.354-370), so the definition of the new version refers to itself and the reduced program has no result. *)
Definition ss : @sprog bn254 := mkSProg [(src 0, ty3, true)] [SDef (src 0) ty3 (SPar (KSlice CField 3 3) (SId ty3 (src 0)) [n32 0; n32 3])] (SId ty3 (src 0)) ty3.
Lemma ss_typed : src_typed ss.
Proof. split; [repeat constructor|]. eexists. unfold ss, ty3, n32. cbn [sbody sargs sret sretty]. split; stype. Qed.
Theorem C50_self_slice_refuted : exists (p q : @sprog bn254) vs v, src_typed p /\ calls_apart (fun _ _ _ _ => None) p /\ reduce (fun _ _ _ _ => None) 5 p = Some q /\ Forall2 has_type vs (map (fun a => snd (fst a)) (sargs p)) /\ srun nocall p vs = Ok (v, []) /\ srun nocall q vs = Stuck.
Proof.
  destruct (reduce (fun _ _ _ _ => None) 5 ss) as [q|] eqn:E; [|vm_compute in E; discriminate E]. exists ss, q, [VArray [VField (of_Z 1); VField (of_Z 2); VField (of_Z 3)]]. eexists. split; [exact ss_typed|]. split; [split; [intros ? ? ? ? ? ? ? ? H; discriminate H|reflexivity]|]. split; [exact E|]. split; [repeat constructor|].
  split; [reflexivity|]. vm_compute in E. injection E as <-. reflexivity.
Qed.
Print Assumptions C50_self_slice_refuted.
(** [0u32 * f(x)] where [f] asserts that [x] is 1: the product is folded to 0 before [f] is inlined, and the assertion disappears. *)
Definition fone : @sfun bn254 := Here [] [(1%nat, CField)] [SAssert (SOp OEq [SId CField (src 1); nf 1]) 1] (n32 7).
Definition f1 : @ftable bn254 := fun f gs ts t => match f, gs, ts, t with 0%nat, [], [CField], CUint W32 => Some fone | _, _, _, _ => None end.
Definition zf : @sprog bn254 := mkSProg [(src 0, CField, true)] [] (SOp (OUBin W32 UMul) [n32 0; SCall [CField] U32 0 [] [SId CField (src 0)]]) U32.
Lemma f1_here : forall f gs ts t d, f1 f gs ts t = Some d -> gs = [] /\ ts = [CField] /\ t = CUint W32 /\ d = fone.
Proof. intros f gs ts t d H. unfold f1 in H. repeat (match type of H with context [match ?x with _ => _ end] => is_var x; destruct x; try discriminate H end). injection H as <-. auto. Qed.
Theorem C50_dropped_call_refuted : exists (funs : @ftable bn254) p q vs, table_ok funs /\ no_self_slice funs p /\ src_typed p /\ reduce funs 5 p = Some q /\ Forall2 has_type vs (map (fun a => snd (fst a)) (sargs p)) /\ srun (scall funs 5) p vs = Failed /\ exists v, srun nocall q vs = Ok (v, []).
Proof.
  destruct (reduce f1 5 zf) as [q|] eqn:E; [|vm_compute in E; discriminate E]. exists f1, zf, q, [VField (of_Z 2)]. split.
  - intros f gs ts t d H. destruct (f1_here _ _ _ _ _ H) as [-> [-> [-> ->]]]. split; [reflexivity|]. split; [reflexivity|]. split; [repeat constructor|]. split; [constructor; [intros []|constructor]|]. eexists. unfold nf, n32. split; stype.
  - split; [split; [|reflexivity]; intros f gs ts t gens params body ret H; destruct (f1_here _ _ _ _ _ H) as [_ [_ [_ J]]]; injection J as _ _ -> _; reflexivity|]. split; [split; [repeat constructor|]; eexists; unfold zf, n32; cbn [sbody sargs sret sretty]; split; stype|]. split; [exact E|]. split; [repeat constructor|]. split; [vm_compute; reflexivity|].
    vm_compute in E. injection E as <-. eexists. reflexivity.
Qed.
Print Assumptions C50_dropped_call_refuted.
