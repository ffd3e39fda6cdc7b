(** C53: constant indices out of bounds are reported at compile time.
    Models: zokrates_analysis/src/out_of_bounds.rs (Bounds.v). *)
From Coq Require Import String Ascii.
From Coq Require Import ZArith NArith List Bool Lia.
From Verif Require Import PField Concrete Interp Bits Zir UintOpt Str Abi Typed Flatten FlattenOps FlattenRun FlattenTy Primality CgExamples FlattenEnd Enforce Writes WritesVal WritesEnd WritesWf Bounds PropTyped.
Import ListNotations.
Open Scope Z_scope.

(** ** Specification *)
(** the expressions of a statement *)
Definition exps_of {PF : PrimeField} (s : tstmt) : list texp := match s with TDef _ _ e | TAssert e _ => [e] | TEmb _ _ _ args | TLog _ args => args end.
(** [r] is a part of [e] that is not inside another read a[i] *)
Inductive outer {PF : PrimeField} (r : texp) : texp -> Prop :=
| OutHere : outer r r
| OutOp : forall op args a, (forall ty, op <> OSel ty) -> In a args -> outer r a -> outer r (TOp op args)
| OutCond : forall c x y a, In a [c; x; y] -> outer r a -> outer r (TCond c x y)
| OutStmt : forall ss e s a, In s ss -> In a (exps_of s) -> outer r a -> outer r (TBlock ss e)
| OutRes : forall ss e, outer r e -> outer r (TBlock ss e).
(** the expressions of the body of a program, in order of execution, after the assignments at computed positions have been rewritten *)
Definition wexps {PF : PrimeField} (s : wstmt) : list texp := match s with WS s => exps_of s | WSet _ _ _ e => [e] end.

Lemma outer_checked : forall (PF : PrimeField) r e, outer r e -> bounds_e e = true -> bounds_e r = true.
Proof.
  intros PF r e H. induction H as [|op args a N I H IH|c x y a I H IH|ss e s a I J H IH|ss e H IH]; intros B.
  - exact B.
  - apply IH. assert (F : forallb bounds_e args = true) by (destruct op; try exact B; exfalso; exact (N _ eq_refl)). rewrite forallb_forall in F. exact (F a I).
  - apply IH. cbn [bounds_e] in B. apply andb_prop in B as [B B3]. apply andb_prop in B as [B1 B2]. destruct I as [<-|[<-|[<-|[]]]]; assumption.
  - apply IH. change (bounds_e (TBlock ss e)) with (forallb bounds_t ss && bounds_e e) in B. apply andb_prop in B as [B _]. rewrite forallb_forall in B. specialize (B s I). destruct s as [x t e0|e0 err|x t em args|fmt args]; cbn [exps_of] in J.
    + destruct J as [<-|[]]. exact B.
    + destruct J as [<-|[]]. exact B.
    + change (bounds_t (TEmb x t em args)) with (forallb bounds_e args) in B. rewrite forallb_forall in B. exact (B a J).
    + change (bounds_t (TLog fmt args)) with (forallb bounds_e args) in B. rewrite forallb_forall in B. exact (B a J).
  - apply IH. change (bounds_e (TBlock ss e)) with (forallb bounds_t ss && bounds_e e) in B. apply andb_prop in B as [_ B]. exact B.
Qed.
Lemma asize_ok : forall (PF : PrimeField) e S ty n, tty S e (CArray ty n) -> asize e = Some n.
Proof.
  intros PF. fix IH 1. intros e S ty n H. destruct e as [t x|op args|c x y|ss e].
  - inversion H; subst. reflexivity.
  - inversion H as [|? ? ? ts t A Y| |]; subst. inversion Y; subst; try reflexivity.
    + cbn [asize]. match goal with Q : exists a b, _ |- _ => destruct Q as [a [b [-> N]]] end. rewrite (tmem_at m (CArray ty n) a b N). reflexivity.
    + cbn [asize]. match goal with Q : nth_error _ _ = Some _ |- _ => rewrite Q end. reflexivity.
  - inversion H as [| |? ? ? ? ? A B D|]; subst. cbn [asize]. exact (IH x S ty n B).
  - inversion H as [| | |? S' ? ? ? A B]; subst. cbn [asize]. exact (IH e S' ty n B).
Qed.
(** ** Theorems *)
(** In an accepted program, a read at a literal index that is not inside another read is within the bounds of its array: it has a value whenever the array has one. *)
Theorem C53_reads_partial : forall (PF : PrimeField) p e a ty k S t, bounds_ok p = true -> (exists s, In s (wbody (remove_writes p)) /\ In e (wexps s)) \/ e = wret p -> outer (TOp (OSel ty) [a; TOp (OUVal W32 k) []]) e ->
  tty S (TOp (OSel ty) [a; TOp (OUVal W32 k) []]) t ->
  exists n, tty S a (CArray ty n) /\ 0 <= k < Z.of_nat n /\ forall rho lg v, teval rho a = Ok (lg, v) -> has_type v (CArray ty n) -> exists x, teval rho (TOp (OSel ty) [a; TOp (OUVal W32 k) []]) = Ok (lg, x) /\ has_type x ty.
Proof.
  intros PF p e a ty k S t B J O Y. assert (Be : bounds_e e = true).
  { unfold bounds_ok in B. apply andb_prop in B as [B1 B2]. rewrite forallb_forall in B1. destruct J as [[s [I J]]| ->]; [|exact B2]. specialize (B1 s I). destruct s as [s|x t0 q e0]; cbn [wexps] in J.
    - destruct s as [x t0 e0|e0 err|x t0 em args|fmt args]; cbn [exps_of] in J.
      + destruct J as [<-|[]]. exact B1.
      + destruct J as [<-|[]]. exact B1.
      + change (bounds_stmt (WS (TEmb x t0 em args))) with (forallb bounds_e args) in B1. rewrite forallb_forall in B1. exact (B1 e J).
      + change (bounds_stmt (WS (TLog fmt args))) with (forallb bounds_e args) in B1. rewrite forallb_forall in B1. exact (B1 e J).
    - destruct J as [<-|[]]. cbn [bounds_stmt] in B1. apply andb_prop in B1 as [_ B1]. exact B1. }
  pose proof (outer_checked PF _ _ O Be) as Br. inversion Y as [|? ? ? ts t' A Yo| |]; subst. inversion Yo; subst. inversion A as [|? ? ? ? ? Ya Ar]; subst. inversion Ar as [|? ? ? ? ? Yi _]; subst. inversion Yi as [|? ? ? ts' ? _ Yv| |]; subst. inversion Yv; subst.
  cbn [bounds_e] in Br. rewrite (asize_ok PF a S t n Ya) in Br. apply Z.ltb_lt in Br. exists n. split; [exact Ya|]. split; [lia|]. intros rho lg v Ev Tv.
  destruct v as [| | |l| |]; try (exfalso; exact Tv). apply type_array in Tv as [Ln Fl]. assert (Ne : nth_error l (Z.to_nat k) <> None) by (apply nth_error_Some; lia). destruct (nth_error l (Z.to_nat k)) as [x|] eqn:En; [|contradiction Ne; reflexivity]. exists x. split.
  - cbn [teval teval_list]. rewrite Ev. cbn [obnd fst snd teval teval_list sem_op map is_tlit]. destruct (0 <=? k) eqn:K; [|apply Z.leb_gt in K; lia]. rewrite En. cbn [of_opt obnd]. rewrite !app_nil_r. reflexivity.
  - rewrite Forall_forall in Fl. apply Fl. exact (nth_error_In _ _ En).
Qed.
Print Assumptions C53_reads_partial.
(** In an accepted program, an assignment at a fixed position succeeds on every value of the variable. *)
Theorem C53_writes : forall (PF : PrimeField) p x t path e S te, bounds_ok p = true -> In (WSet x t path e) (wbody p) -> const_path path = true -> path_ty S t path te ->
  forall rho v new, has_type v t -> has_type new te -> exists ps v', steps rho path = Ok ([], ps) /\ put ps new v = Some v'.
Proof.
  intros PF p x t path e S te B I Cp Y rho v new Tv Tn. unfold bounds_ok in B. apply andb_prop in B as [B _]. rewrite forallb_forall in B. cbn [remove_writes wbody] in B.
  assert (Bs : bounds_stmt (WSet x t path e) = true) by (apply B; apply in_flat_map; exists (WSet x t path e); split; [exact I|cbn [remove_write]; rewrite Cp; left; reflexivity]). cbn [bounds_stmt] in Bs. apply andb_prop in Bs as [Bs _].
  exists (csteps path). pose proof (csteps_ok path rho Cp) as E. pose proof (path_steps S t path te Y rho [] (csteps path) E) as St.
  assert (Ib : inb t (csteps path)).
  { clear - Y Cp Bs. induction Y as [t|ty n i r t N Yi H IH|ms m tm r t a b E Na H IH|ts k tk r t E H IH]; cbn [const_path path_in_bounds] in *.
    - exact Logic.I.
    - apply andb_prop in Cp as [C1 C2]. apply is_ulit_inv in C1 as [w [k ->]]. apply andb_prop in Bs as [P1 P2]. cbn [csteps inb]. split; [|exact (IH C2 P2)]. apply Z.ltb_lt in P1. split; [|exact P1]. inversion Yi as [|? ? ? ? ? _ Yv| |]; subst. inversion Yv; subst. lia.
    - cbn [csteps inb]. subst ms. rewrite (tmem_at m tm a b Na) in Bs |- *. exact (IH Cp Bs).
    - cbn [csteps inb]. rewrite E in Bs |- *. exact (IH Cp Bs). }
  destruct (put_flat _ _ _ St v Tv Ib) as [a [old [c [_ [_ [_ Q]]]]]]. destruct (Q new Tn) as [v' [Pv _]]. exists v'. split; [exact E|exact Pv].
Qed.
Print Assumptions C53_writes.

(** ** What does not hold *)
(** [def main(field[2][3] a) -> field { return a[3][0]; }]: the inner read is not visited, so the check accepts; no argument gives a result, and the
    flattener then indexes a vector out of its bounds (a crash of the compiler, not an error). *)
Definition fa23 : cty := CArray (CArray CField 2) 3.
Definition sel3 : @texp bn254 := TOp (OSel (CArray CField 2)) [TId fa23 0; TOp (OUVal W32 3) []].
Definition oob : @wprog bn254 := mkWProg [(0, fa23, true)] [] (TOp (OSel CField) [sel3; TOp (OUVal W32 0) []]) CField.
Lemma oob_typed : wwell_typed oob.
Proof.
  split; [repeat constructor|]. split; [|cbn; constructor; [intros []|constructor]]. exists (tparams (wargs oob)). split; [constructor|]. cbn [wret oob wretty]. unfold sel3.
  econstructor; [|apply (YSel CField 2); lia]. constructor; [|constructor; [econstructor; [constructor|constructor; cbn; lia]|constructor]]. econstructor; [|apply (YSel _ 3); lia]. constructor; [constructor; reflexivity|]. constructor; [econstructor; [constructor|constructor; cbn; lia]|constructor].
Qed.
Theorem C53_nested_refuted : exists p : @wprog bn254, wwell_typed p /\ nonneg_ids p /\ bounds_ok p = true /\ (forall vs, Forall2 has_type vs (map pty (wargs p)) -> wrun p vs = Stuck) /\ wcompile p = None.
Proof.
  exists oob. split; [exact oob_typed|]. split; [intros y [<-|[]]; apply Z.le_refl|]. split; [vm_compute; reflexivity|]. split; [|vm_compute; reflexivity].
  intros vs H. inversion H as [|v ? r ? T H2]; subst. inversion H2; subst. destruct v as [| | |l| |]; try (exfalso; exact T). apply type_array in T as [L _]. unfold wrun, oob. cbn [wargs wbody wexecs obnd tbind fst snd wret]. unfold sel3. cbn [teval teval_list]. unfold tupd at 1. cbn [Z.eqb of_opt obnd fst snd map is_tlit sem_op Z.leb Z.compare].
  assert (N : nth_error l (Z.to_nat 3) = None) by (apply nth_error_None; rewrite L; apply Nat.le_refl). rewrite N. reflexivity.
Qed.
Print Assumptions C53_nested_refuted.
(** a read and a write at the last index are accepted, one further they are rejected *)
Example C53_nonvacuous : let prog k := (mkWProg [(0, CArray CField 3, true)] [WSet 0 (CArray CField 3) [ASel (TOp (OUVal W32 k) [])] (TOp (OSel CField) [TId (CArray CField 3) 0; TOp (OUVal W32 k) []])] (TId CField 0) CField : @wprog bn254) in
  bounds_ok (prog 2) = true /\ bounds_ok (prog 3) = false.
Proof. vm_compute. auto. Qed.
