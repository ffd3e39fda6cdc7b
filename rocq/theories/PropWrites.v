(** Property theorems: assignments to parts of variables (C48). *)
From Coq Require Import String.
From Coq Require Import ZArith NArith List Bool Lia Permutation.
From Verif Require Import PField SMap IR IRSpec Wf Interp Optimizer OptimizerProofs OptPipeline OptExtra Bits Flat FlatProofs Zir Codegen CgBase CgGadgets CgExpr CgStmt CgEmit CgProg CgWf CgEnd
  InterpProofs PropIR Concrete Primality CgExamples CgCheck PropCodegen PropCompile UintOpt UintOptProofs UintRaw UintCheck PropUint Panic DeadCode Source NoFail PropSource ZProp ZPropStmt ZPropType PropFold
  Str Abi Typed Flatten FlattenOps FlattenSim FlattenRun FlattenTy FlattenShape Enforce FlattenEnd Fields ProgIO PropTyped Writes Redefine WritesVal WritesExp WritesChoose WritesRun WritesEnd.
Import ListNotations.
Open Scope Z_scope.


(** A program with assignments to parts of its variables, each of them in the class [safe_write]: a run of the program is a run of its translation, with the same result. *)
Theorem C48_runs_partial : forall (PF : PrimeField) p z vs v lg, wide -> wwell_typed p -> nonneg_ids p -> forallb safe_write (wbody p) = true -> wcompile p = Some z ->
  Forall2 has_type vs (map pty (wargs p)) -> wrun p vs = Ok (v, lg) ->
  has_type v (wretty p) /\ exists lz, sem_prog z (encode_values vs) = Some (encode v, lz) /\ Permutation lz (map zentry lg).
Proof. intros PF p z vs v lg. exact (wcompile_run p z vs v lg). Qed.
Print Assumptions C48_runs_partial.
(** An assertion of the main function that is false, or an index computed by the program that is out of bounds in an assignment, leaves the translation without a run. *)
Theorem C48_enforced_partial : forall (PF : PrimeField) p z vs, wide -> wwell_typed p -> nonneg_ids p -> forallb safe_write (wbody p) = true -> wcompile p = Some z ->
  Forall2 has_type vs (map pty (wargs p)) -> wfails p vs -> sem_prog z (encode_values vs) = None.
Proof. intros PF p z vs W Wt Nn Sw H Tv Hf. destruct (wcompile_violates false p z vs W Wt Nn Sw H Tv Hf) as [rho [B V]]. unfold sem_prog. rewrite B, (proj2 (violates_none false) _ _ V). reflexivity. Qed.
Print Assumptions C48_enforced_partial.
(** ** What an assignment means: the part named takes the new value, every part that branches off from it keeps its value, and so does every other variable. *)
Fixpoint get {PF : PrimeField} (p : list step) (v : value_) : option value_ :=
  match p with
  | [] => Some v
  | PIdx k :: r => match v with VArray l => if 0 <=? k then match nth_error l (Z.to_nat k) with Some x => get r x | None => None end else None | _ => None end
  | PMem m :: r => match v with VStruct l => match find (fun q => String.eqb (fst q) m) l with Some q => get r (snd q) | None => None end | _ => None end
  | PElt k :: r => match v with VTuple l => match nth_error l k with Some x => get r x | None => None end | _ => None end
  end.
(** two paths that part at some step *)
Inductive diverge : list step -> list step -> Prop :=
| DHere : forall a b p q, a <> b -> diverge (a :: p) (b :: q)
| DNext : forall a p q, diverge p q -> diverge (a :: p) (a :: q).
Lemma put_nth_same : forall A k (f : A -> option A) l l', put_nth k f l = Some l' -> exists x y, nth_error l k = Some x /\ f x = Some y /\ nth_error l' k = Some y /\ forall j, j <> k -> nth_error l' j = nth_error l j.
Proof.
  intros A k. induction k as [|k IH]; intros f l l' H; destruct l as [|a l]; cbn [put_nth] in H; try discriminate H.
  - destruct (f a) as [y|] eqn:E; [|discriminate H]. injection H as <-. exists a, y. split; [reflexivity|]. split; [exact E|]. split; [reflexivity|]. intros [|j] J; [contradiction J; reflexivity|reflexivity].
  - destruct (put_nth k f l) as [l2|] eqn:E; [|discriminate H]. injection H as <-. destruct (IH _ _ _ E) as [x [y [A1 [A2 [A3 A4]]]]]. exists x, y. split; [exact A1|]. split; [exact A2|]. split; [exact A3|]. intros [|j] J; [reflexivity|]. apply A4. intros ->. apply J. reflexivity.
Qed.
Lemma put_mem_same : forall {PF : PrimeField} m f l l', put_mem m f l = Some l' -> exists x y, find (fun q => String.eqb (fst q) m) l = Some (m, x) /\ f x = Some y /\ find (fun q => String.eqb (fst q) m) l' = Some (m, y) /\
  forall k, k <> m -> find (fun q => String.eqb (fst q) k) l' = find (fun q => String.eqb (fst q) k) l.
Proof.
  intros PF m f. induction l as [|[k x] l IH]; intros l' H; cbn [put_mem] in H; [discriminate H|]. cbn [find fst]. destruct (String.eqb k m) eqn:E.
  - destruct (f x) as [y|] eqn:Ef; [|discriminate H]. injection H as <-. apply String.eqb_eq in E. subst k. exists x, y. cbn [find fst]. rewrite String.eqb_refl. split; [reflexivity|]. split; [exact Ef|]. split; [reflexivity|]. intros k K. destruct (String.eqb m k) eqn:E2; [apply String.eqb_eq in E2; congruence|reflexivity].
  - destruct (put_mem m f l) as [l2|] eqn:El; [|discriminate H]. injection H as <-. destruct (IH _ eq_refl) as [a [b [A1 [A2 [A3 A4]]]]]. exists a, b. cbn [find fst]. rewrite E. split; [exact A1|]. split; [exact A2|]. split; [exact A3|]. intros j J. rewrite (A4 j J). reflexivity.
Qed.
Lemma put_get : forall {PF : PrimeField} ps w v v', put ps w v = Some v' -> get ps v' = Some w /\ forall qs, diverge ps qs -> get qs v' = get qs v.
Proof.
  intros PF. induction ps as [|[k|m|k] ps IH]; intros w v v' H; cbn [put] in H.
  - injection H as <-. split; [reflexivity|]. intros qs D. inversion D.
  - destruct v as [ | | |l| | ]; try discriminate H. destruct (0 <=? k) eqn:K; [|discriminate H]. destruct (put_nth (Z.to_nat k) (put ps w) l) as [l2|] eqn:E; [|discriminate H]. injection H as <-. destruct (put_nth_same _ _ _ _ _ E) as [x [y [A1 [A2 [A3 A4]]]]]. destruct (IH _ _ _ A2) as [B1 B2]. split; [cbn [get]; rewrite K, A3; exact B1|].
    intros qs D. inversion D as [? b ? q N|? ? q D2]; subst; [|cbn [get]; rewrite K, A1, A3; apply B2; exact D2]. destruct b as [j|j|j]; cbn [get]; try reflexivity. destruct (0 <=? j) eqn:J; [|reflexivity]. rewrite A4; [reflexivity|]. apply Z.leb_le in K, J. intros X. apply N. f_equal. lia.
  - destruct v as [ | | | | |l]; try discriminate H. destruct (put_mem m (put ps w) l) as [l2|] eqn:E; [|discriminate H]. injection H as <-. destruct (put_mem_same _ _ _ _ E) as [x [y [A1 [A2 [A3 A4]]]]]. destruct (IH _ _ _ A2) as [B1 B2]. split; [cbn [get]; rewrite A3; exact B1|].
    intros qs D. inversion D as [? b ? q N|? ? q D2]; subst; [|cbn [get]; rewrite A1, A3; apply B2; exact D2]. destruct b as [j|j|j]; cbn [get]; try reflexivity. rewrite A4; [reflexivity|]. intros X. apply N. congruence.
  - destruct v as [ | | | |l| ]; try discriminate H. destruct (put_nth k (put ps w) l) as [l2|] eqn:E; [|discriminate H]. injection H as <-. destruct (put_nth_same _ _ _ _ _ E) as [x [y [A1 [A2 [A3 A4]]]]]. destruct (IH _ _ _ A2) as [B1 B2]. split; [cbn [get]; rewrite A3; exact B1|].
    intros qs D. inversion D as [? b ? q N|? ? q D2]; subst; [|cbn [get]; rewrite A1, A3; apply B2; exact D2]. destruct b as [j|j|j]; cbn [get]; try reflexivity. rewrite A4; [reflexivity|]. intros X. apply N. congruence.
Qed.
Theorem C48_assignment : forall (PF : PrimeField) rho x t p e lg rho', wexec rho (WSet x t p e) = Ok (lg, rho') ->
  exists l1 ps l2 w v v', steps rho p = Ok (l1, ps) /\ teval rho e = Ok (l2, w) /\ rho x = Some v /\ rho' x = Some v' /\
    get ps v' = Some w /\ (forall qs, diverge ps qs -> get qs v' = get qs v) /\ (forall y, y <> x -> rho' y = rho y).
Proof.
  intros PF rho x t p e lg rho' H. cbn [wexec] in H. apply ok_inv in H as [[l1 ps] [E1 H]]. apply ok_inv in H as [[l2 w] [E2 H]]. apply ok_inv in H as [v [E3 H]]. apply ok_inv in H as [v' [E4 H]]. cbn [fst snd] in *. injection H as <- <-.
  unfold of_opt in E3. destruct (rho x) as [v0|] eqn:Ex; [|discriminate E3]. injection E3 as ->. unfold of_put in E4. destruct (put ps w v) as [v0|] eqn:Ep; [|discriminate E4]. injection E4 as ->. destruct (put_get _ _ _ _ Ep) as [A B].
  exists l1, ps, l2, w, v, v'. split; [exact E1|]. split; [exact E2|]. split; [reflexivity|]. unfold tupd. split; [rewrite Z.eqb_refl; reflexivity|]. split; [exact A|]. split; [exact B|]. intros y Y. destruct (Z.eqb_spec y x); [contradiction|reflexivity].
Qed.
Print Assumptions C48_assignment.


Definition run_w (p : @wprog bn254) (vs : list (@value_ bn254)) : option (list (option Z)) := match wcompile p with Some z => run_full z (map fval (encode_values vs)) | None => None end.
Definition fl (n : Z) : @texp bn254 := TOp (OFVal (of_Z n)) [].
Definition ul (n : Z) : @texp bn254 := TOp (OUVal W32 n) [].
Definition A22 : cty := CArray (CArray CField 2) 2.
Definition sel2 (i j : @texp bn254) : @texp bn254 := TOp (OSel CField) [TOp (OSel (CArray CField 2)) [TId A22 1; i]; j].
(** def main(private field[2][2] mut a) -> field[2] { a[0] = [a[0][1], a[0][0]]; return a[0]; } *)
Definition p_swap : @wprog bn254 := mkWProg [(1, A22, true)] [WSet 1 A22 [ASel (ul 0)] (TOp (OArr CField 2 [false; false]) [sel2 (ul 0) (ul 1); sel2 (ul 0) (ul 0)])] (TOp (OSel (CArray CField 2)) [TId A22 1; ul 0]) (CArray CField 2).
(** def main(private field[2] mut a, private u32 i) -> field { a[i] = 1 / (a[0] - 1); return a[0]; } *)
Definition A2 : cty := CArray CField 2.
Definition p_again : @wprog bn254 := mkWProg [(1, A2, true); (2, CUint W32, true)] [WSet 1 A2 [ASel (TId (CUint W32) 2)] (TOp (OFBin FDiv) [fl 1; TOp (OFBin FSub) [TOp (OSel CField) [TId A2 1; ul 0]; fl 1]])] (TOp (OSel CField) [TId A2 1; ul 0]) CField.

Definition arr (a b c d : Z) : @value_ bn254 := VArray [VArray [VField (of_Z a); VField (of_Z b)]; VArray [VField (of_Z c); VField (of_Z d)]].
Lemma arr_type : forall a b c d, has_type (arr a b c d) A22.
Proof. intros. apply type_array. split; [reflexivity|]. constructor; [|constructor; [|constructor]]; (apply type_array; split; [reflexivity|]; constructor; [exact I|constructor; [exact I|constructor]]). Qed.
Definition fadd (a b : @texp bn254) : @texp bn254 := TOp (OFBin FAdd) [a; b].
Definition fmul (a b : @texp bn254) : @texp bn254 := TOp (OFBin FMul) [a; b].
Definition vi : @texp bn254 := TId (CUint W32) 2.
Definition vx : @texp bn254 := TId CField 3.
(** def main(private field[2][2] mut a, private u32 i, private field x) -> field[2] {
      a[i][1] = x * a[0][0]; a[0] = [x, x + a[i][1]] is not in the class, so: a[0] = [x, x + 1]; assert(a[1][1] == x * x); return a[i]; } *)
Definition p_ok : @wprog bn254 := mkWProg [(1, A22, true); (2, CUint W32, true); (3, CField, true)]
  [WSet 1 A22 [ASel vi; ASel (ul 1)] (fmul vx (sel2 (ul 0) (ul 0)));
   WSet 1 A22 [ASel (ul 0)] (TOp (OArr CField 2 [false; false]) [vx; fadd vx (fl 1)]);
   WS (TAssert (TOp OEq [sel2 (ul 1) (ul 1); fmul vx vx]) 5)]
  (TOp (OSel (CArray CField 2)) [TId A22 1; vi]) (CArray CField 2).
Definition okw (a b c d i x : Z) : list (@value_ bn254) := [arr a b c d; VUint W32 i; VField (of_Z x)].
Ltac wopty := lazymatch goal with
  | |- op_ty (OArr _ _ _) _ _ => apply YArr; apply ATone, ATone, ATnil
  | _ => opty end.
Ltac ty2 := lazymatch goal with
  | |- tty _ (TId _ _) _ => apply YId; reflexivity
  | |- tty _ (TOp _ _) _ => eapply YOp; [ty2|wopty]
  | |- ttys _ [] _ => apply YNil
  | |- ttys _ (_ :: _) _ => eapply YCons; [ty2|ty2]
  end.
Ltac pathed := lazymatch goal with
  | |- path_ty _ _ [] _ => apply PTnil
  | |- path_ty _ _ (ASel _ :: _) _ => apply PTsel; [apply Z.ltb_lt; vm_compute; reflexivity|ty2|pathed]
  end.
Ltac wtyped := lazymatch goal with
  | |- wstys _ [] _ => apply WTnil
  | |- wstys _ (_ :: _) _ => eapply WTcons; [wtyped|wtyped]
  | |- wsty _ (WS (TAssert _ _)) _ => apply WTS; apply YAssert; ty2
  | |- wsty _ (WSet _ _ _ _) _ => eapply WTSet; [reflexivity|exact I|pathed|ty2]
  end.
Lemma p_ok_typed : wwell_typed p_ok.
Proof.
  split; [|split].
  - constructor; [exact I|constructor; [exact I|constructor; [exact I|constructor]]].
  - eexists. split; [unfold p_ok, sel2, fl, ul, vx, vi, fadd, fmul; cbn [wbody wargs]; wtyped|unfold p_ok, sel2, fl, ul, vx, vi, fadd, fmul; cbn [wret wretty]; ty2].
  - apply nodupb_ok. vm_compute. reflexivity.
Qed.
Lemma bn_wide : @wide bn254.
Proof. apply req_wide. vm_compute. repeat constructor. Qed.
Definition failsb (p : @wprog bn254) (vs : list (@value_ bn254)) (k : nat) : bool :=
  match wexecs (tbind (fun _ => None) (wargs p) vs) (firstn k (wbody p)), nth_error (wbody p) k with
  | Ok (_, rho), Some (WS (TAssert e _)) => match teval rho e with Ok (_, VBool false) => true | _ => false end
  | Ok (_, rho), Some (WSet x t q e) => negb (const_path q) && match steps rho q, teval rho e, rho x with Ok (_, ps), Ok (_, w), Some v => match put ps w v with None => true | _ => false end | _, _, _ => false end
  | _, _ => false
  end.
Lemma split_nth : forall A (l : list A) k x, nth_error l k = Some x -> l = firstn k l ++ x :: skipn (S k) l.
Proof. intros A l. induction l as [|a l IH]; intros [|k] x H; cbn [nth_error] in H; try discriminate H; [injection H as ->; reflexivity|]. cbn [firstn skipn app]. rewrite (IH k x H) at 1. reflexivity. Qed.
Lemma failsb_ok : forall p vs k, failsb p vs k = true -> wfails p vs.
Proof.
  intros p vs k H. unfold failsb in H. destruct (wexecs _ (firstn k (wbody p))) as [[lg rho]| |] eqn:E; try discriminate H. destruct (nth_error (wbody p) k) as [s|] eqn:N; [|discriminate H]. exists (firstn k (wbody p)), s, (skipn (S k) (wbody p)), lg, rho. split; [apply split_nth; exact N|]. split; [exact E|].
  destruct s as [[|e err| |]|x t q e]; cbn beta iota in H; try discriminate H; cbn [fails_at].
  - destruct (teval rho e) as [[lg2 [| |[|]| | |]]| |] eqn:Ev; try discriminate H. exists lg2. reflexivity.
  - apply andb_prop in H as [H1 H]. apply negb_true_iff in H1. split; [exact H1|]. destruct (steps rho q) as [[l1 ps]| |] eqn:E1; try discriminate H. destruct (teval rho e) as [[l2 w]| |] eqn:E2; try discriminate H. destruct (rho x) as [v|] eqn:E3; [|discriminate H]. destruct (put ps w v) eqn:E4; [discriminate H|]. exists l1, ps, l2, w, v. auto.
Qed.
Example C48_nonvacuous : @wide bn254 /\ wwell_typed p_ok /\ nonneg_ids p_ok /\ forallb safe_write (wbody p_ok) = true /\ (exists z, wcompile p_ok = Some z) /\
  (forall a b c d i x, 0 <= i < 2 ^ 32 -> Forall2 has_type (okw a b c d i x) (map pty (wargs p_ok))) /\
  show (wrun p_ok (okw 3 4 8 9 1 3)) = Some ([8; 9], []) /\ run_w p_ok (okw 3 4 8 9 1 3) = Some [Some 8; Some 9] /\
  show (wrun p_ok (okw 3 4 8 9 0 3)) = Some ([3; 4], []) /\ run_w p_ok (okw 3 4 8 9 0 3) = Some [Some 3; Some 4] /\
  wfails p_ok (okw 3 4 8 9 1 4) /\ wfails p_ok (okw 3 4 8 9 2 3).
Proof.
  split; [exact bn_wide|]. split; [exact p_ok_typed|]. split; [|split; [vm_compute; reflexivity|split; [|split; [|split; [|split; [|split; [|split; [|split]]]]]]]].
  - intros y [<-|[<-|[<-|[]]]]; vm_compute; intros H; discriminate H.
  - assert (H : match wcompile p_ok with Some z => fullb z | None => false end = true) by (vm_compute; reflexivity). destruct (wcompile p_ok) as [z|]; [exists z; reflexivity|discriminate H].
  - intros a b c d i x Hi. cbn [map p_ok wargs pty fst snd okw]. constructor; [apply arr_type|constructor; [split; [reflexivity|exact Hi]|constructor; [exact I|constructor]]].
  - vm_compute. reflexivity.
  - vm_compute. reflexivity.
  - vm_compute. reflexivity.
  - vm_compute. reflexivity.
  - exact (failsb_ok p_ok (okw 3 4 8 9 1 4) 2 ltac:(vm_compute; reflexivity)).
  - exact (failsb_ok p_ok (okw 3 4 8 9 2 3) 0 ltac:(vm_compute; reflexivity)).
Qed.

(** Outside the class the translation is wrong. An assignment to an element that is an array, from its own components: the components are assigned one after the other, and the second reads the first. *)
Theorem C48_aggregate_refuted : wwell_typed p_swap /\ nonneg_ids p_swap /\ Forall2 has_type [arr 1 2 3 4] (map pty (wargs p_swap)) /\
  show (wrun p_swap [arr 1 2 3 4]) = Some ([2; 1], []) /\ run_w p_swap [arr 1 2 3 4] = Some [Some 2; Some 2].
Proof.
  split; [|split; [|split; [|split]]].
  - split; [|split].
    + constructor; [exact I|constructor].
    + eexists. split; [unfold p_swap, sel2, fl, ul; cbn [wbody wargs]; wtyped|unfold p_swap, sel2, fl, ul; cbn [wret wretty]; ty2].
    + apply nodupb_ok. vm_compute. reflexivity.
  - intros y [<-|[]]; vm_compute; intros H; discriminate H.
  - constructor; [apply arr_type|constructor].
  - vm_compute. reflexivity.
  - vm_compute. reflexivity.
Qed.
Print Assumptions C48_aggregate_refuted.
(** An assignment at a computed index of a value computed from the array: the value is computed again for each element, after the elements before it have changed. *)
Definition again (a b i : Z) : list (@value_ bn254) := [VArray [VField (of_Z a); VField (of_Z b)]; VUint W32 i].
Theorem C48_recomputed_refuted : wwell_typed p_again /\ nonneg_ids p_again /\ Forall2 has_type (again 2 2 0) (map pty (wargs p_again)) /\
  show (wrun p_again (again 2 2 0)) = Some ([1], []) /\ run_w p_again (again 2 2 0) = None /\ run_w p_again (again 2 2 1) = Some [Some 2].
Proof.
  split; [|split; [|split; [|split; [|split]]]].
  - split; [|split].
    + constructor; [exact I|constructor; [exact I|constructor]].
    + eexists. split; [unfold p_again, fl, ul; cbn [wbody wargs]; wtyped|unfold p_again, fl, ul; cbn [wret wretty]; ty2].
    + apply nodupb_ok. vm_compute. reflexivity.
  - intros y [<-|[<-|[]]]; vm_compute; intros H; discriminate H.
  - constructor; [apply type_array; split; [reflexivity|constructor; [exact I|constructor; [exact I|constructor]]]|constructor; [split; [reflexivity|split; [apply Z.leb_le|apply Z.ltb_lt]; vm_compute; reflexivity]|constructor]].
  - vm_compute. reflexivity.
  - vm_compute. reflexivity.
  - vm_compute. reflexivity.
Qed.
Print Assumptions C48_recomputed_refuted.
