(** Property theorems: constant propagation on typed programs (C49). *)
From Coq Require Import String.
From Coq Require Import ZArith NArith List Bool Lia.
From Verif Require Import PField Interp Bits Zir CgProg UintOpt Concrete Primality Str Abi Typed Flatten FlattenOps FlattenSim FlattenRun Writes Redefine WritesVal WritesExp ZProp ZPropStmt Src SrcTy TProp TPropOk TPropArr TPropOps TPropExp TPropStmt TPropProg.
Import ListNotations.
Open Scope Z_scope.

(** A program without calls and loops (what the pass is given) and the propagated program: a run of the first with a result is one of the second, with
    the same result and the same log; a run that violates an assertion, or in which a built-in function rejects its argument, is one of the second. *)
Theorem C49_runs : forall (PF : PrimeField) p q vs, src_typed p -> no_for (sbody p) -> propagate_typed p = Some q -> Forall2 has_type vs (map (fun a => snd (fst a)) (sargs p)) ->
  (forall v lg, srun nocall p vs = Ok (v, lg) -> srun nocall q vs = Ok (v, lg)) /\ (srun nocall p vs = Failed -> srun nocall q vs = Failed).
Proof.
  intros PF p q vs W F P T. destruct (propagate_ok p q W F P) as [_ [_ [_ [_ H]]]]. destruct (H nocall vs nocall_ok T) as [A B]. split; [|exact (B nocall_silent)].
  intros v lg E. destruct (A v lg E) as [lg' [E' [_ Q]]]. rewrite (Q nocall_silent) in E'. exact E'.
Qed.
Print Assumptions C49_runs.
(** The propagated program accepts an input only with the result of the program, unless the program is undefined on it (a division by zero, an index out of bounds). *)
Theorem C49_no_new_results : forall (PF : PrimeField) p q vs v lg, src_typed p -> no_for (sbody p) -> propagate_typed p = Some q -> Forall2 has_type vs (map (fun a => snd (fst a)) (sargs p)) ->
  srun nocall q vs = Ok (v, lg) -> srun nocall p vs = Ok (v, lg) \/ srun nocall p vs = Stuck.
Proof.
  intros PF p q vs v lg W F P T E. destruct (C49_runs PF p q vs W F P T) as [A B]. destruct (srun nocall p vs) as [[v' lg']| |] eqn:R; [|rewrite (B eq_refl) in E; discriminate E|right; reflexivity]. rewrite (A v' lg' eq_refl) in E. left. exact E.
Qed.
Print Assumptions C49_no_new_results.
(** The propagated program is well typed, with the same arguments and the same type of result. *)
Theorem C49_typed : forall (PF : PrimeField) p q, src_typed p -> no_for (sbody p) -> propagate_typed p = Some q -> src_typed q /\ sargs q = sargs p /\ sretty q = sretty p.
Proof. intros PF p q W F P. destruct (propagate_ok p q W F P) as [A [B [D _]]]. auto. Qed.
Print Assumptions C49_typed.
(** An assertion the pass reports as false at compile time is violated, or not reached, in every run. *)
Theorem C49_false_assertion : forall (PF : PrimeField) args pre e err post ret ty C l S1 S2, no_for pre ->
  xstys (cbind (fun _ => None) (map fst args)) pre S1 -> xsty S1 (SAssert e err) S2 -> pstmts (fun _ => None) pre = Some (C, l) -> pexp C e = Some (SOp (OBVal false) []) ->
  forall vs r, Forall2 has_type vs (map (fun a : rid * cty * bool => snd (fst a)) args) -> srun nocall (mkSProg args (pre ++ SAssert e err :: post) ret ty) vs <> Ok r.
Proof.
  intros PF args pre e err post ret ty C l S1 S2 F X Xa P E vs r T H. set (G := cbind (fun _ => None) (map fst args)) in *. unfold srun in H. cbn [sargs sbody sret] in H. set (r0 := rbind (fun _ => None) (map (fun q => fst (fst q)) args) vs) in *. apply ok_inv in H as [[la ra] [Ea _]].
  assert (R0 : rok G r0). { unfold G, r0. replace (map (fun q : rid * cty * bool => fst (fst q)) args) with (map (@fst rid cty) (map fst args)) by apply map_map. apply rbind_ok; [intros y t Hy; discriminate Hy|]. rewrite map_map. exact T. }
  destruct (proj2 stys_ceq _ _ _ X (cover (fun _ => None) G) (empty_cover G)) as [S' [X' Q']]. destruct (pstmts_ok pre (fun _ => None) G S' C l ltac:(intros y t v Hy; discriminate Hy) ltac:(intros y t v Hy; discriminate Hy) X' F P) as [G' [Y [K [N [Q [_ [Sim _]]]]]]].
  assert (SP : exists lp rp lq rq, sexecs nocall r0 pre = Ok (lp, rp) /\ sexec nocall rp (SAssert e err) = Ok (lq, rq)).
  { clear - Ea. clearbody r0. revert r0 la ra Ea. induction pre as [|s pre IH]; intros r0 la ra Ea; cbn [app] in Ea; rewrite u_ex_cons in Ea; apply ok_inv in Ea as [[l1 r1] [E1 Ea]]; [exists [], r0, l1, r1; auto|]. apply ok_inv in Ea as [[l2 r2] [E2 _]]. cbn [fst snd] in E2. destruct (IH r1 l2 r2 E2) as [lp [rp [lq [rq [A B]]]]]. exists (l1 ++ lp), rp, lq, rq. rewrite u_ex_cons, E1. cbn [obnd fst snd]. rewrite A. auto. }
  destruct SP as [lp [rp [lq [rq [Ep Eq]]]]]. destruct (Sim nocall r0 nocall_ok R0 _ _ Ep) as [lg' [r' [E1 [_ [_ R1]]]]]. pose proof (proj2 (exec_typed nocall nocall_ok) _ _ _ Y _ _ _ R0 E1) as Rk. inversion Xa; subst.
  assert (Xe : xty (cover C G') e CBool) by (match goal with Z0 : xty _ e CBool |- _ => apply (proj1 ty_sub _ _ _ Z0) end; intros y t Hy; rewrite Q, <- Q'; exact Hy). destruct (pexp_ok C G' K _ _ _ Xe E) as [_ [_ V]]. cbn [sexec] in Eq. apply ok_inv in Eq as [[le ve] [Ee Eq]]. rewrite <- (eval_ext nocall _ _ R1) in Ee. destruct (V nocall r' nocall_ok Rk _ _ Ee) as [lx [Ex _]]. apply ev_b in Ex as ->. discriminate Eq.
Qed.
Print Assumptions C49_false_assertion.
(** A built-in function the pass rejects at compile time rejects its arguments. *)
Lemma greedy_rest : forall n z l r, greedy n z = (l, r) -> 0 <= z < pow2 n -> r = 0.
Proof.
  induction n as [|n IH]; intros z l r E H; cbn [greedy] in E; [injection E as _ <-; change (pow2 0) with 1 in H; lia|]. rewrite pow2_S in H. destruct (greedy n _) as [l' r'] eqn:G. injection E as _ <-. apply (IH _ _ _ G). unfold pow2 in *. destruct (Z.leb_spec (2 ^ Z.of_nat n) z); lia.
Qed.
Theorem C49_rejected_builtin : forall (PF : PrimeField) em ts t vs, emb_ty em ts t -> Forall2 has_type vs ts -> pemb em vs = None -> sem_emb em vs = Failed.
Proof.
  intros PF em ts t vs Y T E. destruct em as [|n|n|n|n]; cbn [emb_ty] in Y.
  - destruct Y as [-> ->]. apply f2_one in T as [u [-> T]]. apply type_field in T as [x ->]. cbn [pemb sem_emb] in *. destruct (Feqb x f0); [discriminate E|]. destruct (Feqb x f1); [discriminate E|reflexivity].
  - destruct Y as [-> [w [-> En]]]. apply f2_one in T as [u [-> T]]. apply type_uint in T as [z [-> R]]. cbn [pemb] in E. destruct (greedy n z) as [l r] eqn:G. rewrite (greedy_rest _ _ _ _ G) in E; [discriminate E|]. subst n. destruct w; exact R.
  - destruct Y as [-> [w [-> En]]]. apply f2_one in T as [u [-> T]]. apply type_arr in T as [l [-> [L T]]]. destruct (bools_typed l T) as [bs [-> [B _]]]. cbn [pemb] in E. rewrite B in E. rewrite map_length in L. subst n. unfold uw_of in E. rewrite L in E. destruct w; cbn [uwn] in *; rewrite Nat.eqb_refl in E; discriminate E.
  - destruct Y as [-> _]. apply f2_two in T as [a [b [-> [Ta Tb]]]]. discriminate E.
  - destruct Y as [-> [-> Hn]]. apply f2_one in T as [u [-> T]]. apply type_field in T as [x ->]. cbn [pemb sem_emb] in *. destruct (Z.ltb_spec (fval x) (2 ^ Z.of_nat n)) as [Lt|_]; [|reflexivity]. exfalso. pose proof (proj2 Hn) as Hp. pose proof (fval_range x) as Rx.
    assert (G : forall n x l r, 2 ^ Z.of_nat (n - 1) < pp -> greedy_f n x = (l, r) -> fval x < pow2 n -> fval r = 0).
    { clear. induction n as [|n IH]; intros x l r Hp E H; cbn [greedy_f] in E; [injection E as _ <-; change (pow2 0) with 1 in H; pose proof (fval_range x); lia|]. assert (P : pow2 n < pp) by (replace (S n - 1)%nat with n in Hp by lia; exact Hp). pose proof (pow2_pos n). rewrite pow2_S in H. assert (P1 : 2 ^ Z.of_nat (n - 1) < pp) by (pose proof (pow2_le (n - 1) n ltac:(lia)); unfold pow2 in *; lia). destruct (greedy_f n _) as [l' r'] eqn:G. injection E as _ <-. assert (V : fval (of_Z (2 ^ Z.of_nat n)) = 2 ^ Z.of_nat n) by (apply fval_of_Z_small; unfold pow2 in *; lia). apply (IH _ _ _ P1 G). pose proof (fval_range x). rewrite V. destruct (Z.leb_spec (2 ^ Z.of_nat n) (fval x)); [|unfold pow2; lia]. unfold fsub. rewrite V, fval_of_Z_small; unfold pow2 in *; lia. }
    destruct (greedy_f n x) as [l r] eqn:Gr. pose proof (G n x l r Hp Gr Lt) as R0. assert (r = f0) by (apply F_ext; exact R0). subst r. rewrite (proj2 (Feqb_eq f0 f0) eq_refl) in E. discriminate E.
Qed.
Print Assumptions C49_rejected_builtin.

(** ** A program which meets the hypotheses *)
Definition n32 (n : Z) : @sexp bn254 := SOp (OUVal W32 n) [].
Definition nf (n : Z) : @sexp bn254 := SOp (OFVal (of_Z n)) [].
Definition vA : @sexp bn254 := SId CField (src 0).
Definition vI : @sexp bn254 := SId U32 (src 1).
Definition vX : @sexp bn254 := SId CField (src 2).
Definition A3 : cty := CArray CField 3.
Definition K2 : cty := CArray U32 2.
Definition vR : @sexp bn254 := SId A3 (src 3).
Definition vK : @sexp bn254 := SId K2 (src 4).
(** def main(private field a, private u32 i) -> field {
      field x = 3;  field[3] mut r = [x, a, 1];  r[i] = 5 * x;  u32[2] mut k = [1, 2];  k[0] = k[1] + 7;  k[i] = 4;
      bool[4] b = unpack(x);  assert(b[3]);  assert(x * 2 == 6);  log("", k, r[0]);  return r[1] + (x == 3 ? a : a / 7);  } *)
Definition ex : @sprog bn254 := mkSProg [(src 0, CField, true); (src 1, U32, true)]
  [SDef (src 2) CField (nf 3);
   SDef (src 3) A3 (SOp (OArr CField 3 [false; false; false]) [vX; vA; nf 1]);
   SSet (src 3) A3 [SASel vI] (SOp (OFBin FMul) [nf 5; vX]);
   SDef (src 4) K2 (SOp (OArr U32 2 [false; false]) [n32 1; n32 2]);
   SSet (src 4) K2 [SASel (n32 0)] (SOp (OUBin W32 UAdd) [SOp (OSel U32) [vK; n32 1]; n32 7]);
   SSet (src 4) K2 [SASel vI] (n32 4);
   SEmb (src 5) (CArray CBool 4) (EUnpack 4) [vX];
   SAssert (SOp (OSel CBool) [SId (CArray CBool 4) (src 5); n32 3]) 0;
   SAssert (SOp OEq [SOp (OFBin FMul) [vX; nf 2]; nf 6]) 1;
   SAssert (SOp OEq [vA; SOp (OSel CField) [vR; n32 1]]) 2;
   SLog 7 [vK; SOp (OSel CField) [vR; n32 0]]]
  (SOp (OFBin FAdd) [SOp (OSel CField) [vR; n32 1]; SCond (SOp OEq [vX; nf 3]) vA (SOp (OFBin FDiv) [vA; nf 7])]) CField.
Ltac sopty := lazymatch goal with
  | |- op_ty (OUVal _ _) _ _ => apply YUVal; split; [apply Z.leb_le|apply Z.ltb_lt]; vm_compute; reflexivity
  | |- op_ty (OFVal _) _ _ => apply YFVal | |- op_ty (OFBin _) _ _ => apply YFBin | |- op_ty OEq _ _ => apply YEq | |- op_ty ONot _ _ => apply YNot | |- op_ty (OUBin _ _) _ _ => apply YUBin
  | |- op_ty (OSel _) _ _ => apply YSel; apply Z.leb_le; vm_compute; reflexivity
  | |- op_ty (OArr _ _ _) _ _ => apply YArr; repeat apply ATone; apply ATnil
  | |- op_ty OTup _ _ => apply YTup
  end.
Ltac spty := lazymatch goal with |- par_ty KPow _ _ => apply PKPow | |- par_ty (KShl _) _ _ => apply PKShl | |- par_ty (KShr _) _ _ => apply PKShr | |- par_ty (KRep _ _) _ _ => apply PKRep | |- par_ty (KSlice _ _ _) _ _ => apply PKSlice end.
Ltac stype := lazymatch goal with
  | |- xty _ (SId _ _) _ => apply XId; reflexivity
  | |- xty _ (SOp _ _) _ => eapply XOp; [stype|sopty]
  | |- xty _ (SPar _ _ _) _ => eapply XPar; [stype|stype|repeat constructor|spty]
  | |- xty _ (SCond _ _ _) _ => eapply XCond; [stype|stype|stype]
  | |- xty _ (SCall _ _ _ _ _) _ => eapply XCall; [stype|repeat constructor|stype]
  | |- xtys _ [] _ => apply XNil
  | |- xtys _ (_ :: _) _ => eapply XCons; [stype|stype]
  | |- xpath _ _ [] _ => apply XPnil
  | |- xpath _ _ (SASel _ :: _) _ => apply XPsel; [apply Z.ltb_lt; vm_compute; reflexivity|stype|stype]
  | |- xstys _ [] _ => apply XSnil
  | |- xstys _ (_ :: _) _ => eapply XScons; [stype|stype]
  | |- xsty _ (SDef _ _ _) _ => apply XDef; [exact I|first [left; reflexivity|right; reflexivity]|stype]
  | |- xsty _ (SSet _ _ _ _) _ => eapply XSet; [reflexivity|exact I|stype|stype]
  | |- xsty _ (SAssert _ _) _ => apply XAssert; stype
  | |- xsty _ (SLog _ _) _ => eapply XLog; stype
  | |- xsty _ (SEmb _ _ _ _) _ => eapply XEmb; [left; reflexivity|stype|]
  | |- xsty _ (SFor _ _ _ _) _ => eapply XFor; [first [left; reflexivity|right; reflexivity]|stype|stype|stype]
  end.
Lemma ex_typed : src_typed ex.
Proof.
  split; [repeat constructor|]. eexists. split; [unfold ex, vX, vA, vI, vR, vK, nf, n32, A3, K2; cbn [sbody sargs]; stype; split; [reflexivity|split; [reflexivity|split; [apply Nat.leb_le; vm_compute; reflexivity|apply Z.ltb_lt; vm_compute; reflexivity]]]|unfold ex, vX, vA, vI, vR, vK, nf, n32, A3, K2; cbn [sret sretty]; stype].
Qed.
Definition shown (o : outcome (@value_ bn254 * list (@entry bn254))) : option (list Z * list (Z * list Z)) :=
  match o with Ok (v, lg) => Some (map fval (encode v : list (@F bn254)), map (fun e => (fst e, map fval (encode_values (snd e) : list (@F bn254)))) lg) | _ => None end.
Definition exi (a i : Z) : list (@value_ bn254) := [VField (of_Z a); VUint W32 i].
Example ex_run : match propagate_typed ex with
  | Some q => length (sbody q) = 6%nat /\ shown (srun nocall ex (exi 10 0)) = Some ([20], [(7, [4; 2; 15])]) /\ shown (srun nocall q (exi 10 0)) = Some ([20], [(7, [4; 2; 15])]) /\ srun nocall ex (exi 10 1) = Failed /\ srun nocall q (exi 10 1) = Failed
  | None => False end.
Proof. vm_compute. auto. Qed.
Example ex_meets : src_typed ex /\ no_for (sbody ex) /\ (exists q, propagate_typed ex = Some q) /\ Forall2 has_type (exi 10 0) (map (fun a => snd (fst a)) (sargs ex)).
Proof.
  split; [exact ex_typed|]. split; [repeat constructor|]. split; [destruct (propagate_typed ex) as [q|] eqn:E; [exists q; reflexivity|pose proof ex_run as H; rewrite E in H; contradiction]|]. constructor; [exact I|]. constructor; [|constructor]. split; [reflexivity|]. split; [apply Z.leb_le|apply Z.ltb_lt]; vm_compute; reflexivity.
Qed.

(** ** What does not hold *)
(** The propagated program accepts an input on which the program divides by zero: [0u32 * (1u32 / b)] is folded to 0 (propagation.rs l.733-736). *)
Definition dz : @sprog bn254 := mkSProg [(src 0, U32, true)] [] (SOp (OUBin W32 UMul) [n32 0; SOp (OUBin W32 UDiv) [n32 1; SId U32 (src 0)]]) U32.
Lemma dz_typed : src_typed dz.
Proof. split; [repeat constructor|]. eexists. unfold dz, n32. cbn [sbody sargs sret sretty]. split; stype. Qed.
Theorem C49_undefined_refuted : exists (p q : @sprog bn254) vs, src_typed p /\ propagate_typed p = Some q /\ Forall2 has_type vs (map (fun a => snd (fst a)) (sargs p)) /\ srun nocall p vs = Stuck /\ exists v, srun nocall q vs = Ok (v, []).
Proof.
  exists dz, (mkSProg [(src 0, U32, true)] [] (SOp (OUVal W32 0) []) U32), [VUint W32 0]. split; [exact dz_typed|]. split; [reflexivity|]. split; [constructor; [|constructor]; split; [reflexivity|]; split; [apply Z.leb_le|apply Z.ltb_lt]; vm_compute; reflexivity|]. split; [reflexivity|]. exists (VUint W32 0). reflexivity.
Qed.
Print Assumptions C49_undefined_refuted.
(** The bits the pass computes for a constant which is unpacked to more bits than the field has are not the bits of the value: on bn254, unpacking the
    constant -1 to 256 bits sets the bit of weight 2^255 > p (propagation.rs l.491-520 reduces 2^255 modulo p before it compares), while the
    directive used at run time computes the bits of p - 1, whose bits 255 and 254 are 0. *)
Definition wide_bits (o : option (option (@value_ bn254))) : list Z :=
  match o with Some (Some v) => map fval (encode v : list (@F bn254)) | _ => [] end.
Theorem C49_wide_unpack_refuted :
  let got := wide_bits (pemb (EUnpack 256) [VField (of_Z (-1) : @F bn254)]) in
  let want := map (fun b : bool => if b then 1 else 0) (bits_be 256 (fval (of_Z (-1) : @F bn254))) in
  length got = 256%nat /\ length want = 256%nat /\ got <> want /\ hd 0 got = 1 /\ hd 0 want = 0.
Proof. cbv zeta. split; [vm_compute; reflexivity|]. split; [vm_compute; reflexivity|]. split; [|split; vm_compute; reflexivity]. intro H. apply (f_equal (hd 0)) in H. vm_compute in H. discriminate H. Qed.
Print Assumptions C49_wide_unpack_refuted.
