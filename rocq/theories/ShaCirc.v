(** Checking that a call of a function of the SHA-256 library is compiled to a circuit that meets the conditions of C58: one computation of the whole pipeline, with a boolean test for casts. *)
From Coq Require Import ZArith NArith List Bool Lia Permutation.
From Verif Require Import Bytes Sha256.
From Verif Require Import Typed Writes Src SrcTy TProp TPropOk TPropProg PropTProp Reduce ReduceRen ReduceExp ReduceSimple ReduceBody Lower PropReduce ReduceOnce.
From Verif Require Import PField SMap Concrete IR IRSpec Interp Bits Optimizer OptimizerProofs OptPipeline OptExtra Flat Zir Codegen CgProg CgEnd CgCheck PropIR Primality CgExamples PropCodegen UintOpt Panic DeadCode NoFail PropCompile Source PropSource PropChecked ZProp ZPropStmt PropFold UintCheck PropUint
  Str Abi Typed Flatten FlattenOps FlattenSim FlattenRun FlattenEnd Enforce PropTyped Writes Redefine WritesVal WritesExp WritesChoose WritesRun WritesEnd WritesWf Bounds PropWrites PropWEnd PropSrcEnd.
From Verif Require Import Std StdRun StdSpec StdTy PropStd Sha ShaRun ShaRound ShaHash ShaPad ShaTy ShaSpec PropSha.
Import ListNotations.
Open Scope list_scope.
Open Scope Z_scope.

Section Casts.
Context {PF : PrimeField}.
Fixpoint uncast_eb (e : texp) : bool :=
  match e with
  | TId _ _ => true
  | TOp _ args => forallb uncast_eb args
  | TCond c x y => uncast_eb c && uncast_eb x && uncast_eb y
  | TBlock ss e => forallb uncast_sb ss && uncast_eb e
  end
with uncast_sb (s : tstmt) : bool :=
  match s with
  | TDef _ _ e | TAssert e _ => uncast_eb e
  | TEmb _ _ em args => match em with EFieldToBool => false | _ => forallb uncast_eb args end
  | TLog _ args => forallb uncast_eb args
  end.
Fixpoint uncast_e_ok (e : texp) : uncast_eb e = true -> uncast_e e
with uncast_s_ok (s : tstmt) : uncast_sb s = true -> uncast_s s.
Proof.
  - assert (L : forall l, forallb uncast_eb l = true -> all_of uncast_e l).
    { induction l as [|x l IHl]; intros E; [exact Logic.I|]. cbn [forallb] in E. apply andb_prop in E as [E1 E2]. split; [exact (uncast_e_ok x E1)|exact (IHl E2)]. }
    assert (Ls : forall l, forallb uncast_sb l = true -> all_of uncast_s l).
    { induction l as [|x l IHl]; intros E; [exact Logic.I|]. cbn [forallb] in E. apply andb_prop in E as [E1 E2]. split; [exact (uncast_s_ok x E1)|exact (IHl E2)]. }
    destruct e as [t x|op args|c x y|ss e]; intros H; cbn [uncast_eb uncast_e] in *.
    + exact Logic.I.
    + exact (L args H).
    + apply andb_prop in H as [H H3]. apply andb_prop in H as [H1 H2]. split; [exact (uncast_e_ok c H1)|split; [exact (uncast_e_ok x H2)|exact (uncast_e_ok y H3)]].
    + apply andb_prop in H as [H1 H2]. split; [exact (Ls ss H1)|exact (uncast_e_ok e H2)].
  - assert (L : forall l, forallb uncast_eb l = true -> all_of uncast_e l).
    { induction l as [|x l IHl]; intros E; [exact Logic.I|]. cbn [forallb] in E. apply andb_prop in E as [E1 E2]. split; [exact (uncast_e_ok x E1)|exact (IHl E2)]. }
    destruct s as [x t e|e err|x t em args|fmt args]; intros H; cbn [uncast_sb uncast_s] in *.
    + exact (uncast_e_ok e H).
    + exact (uncast_e_ok e H).
    + destruct em; try discriminate H; (split; [intros E; discriminate E|exact (L args H)]).
    + exact (L args H).
Qed.
Definition uncast_wb (s : wstmt) : bool :=
  match s with
  | WS s => uncast_sb s
  | WSet _ _ p e => forallb (fun a => match a with ASel i => uncast_eb i | _ => true end) p && uncast_eb e
  end.
Definition wuncastb (p : wprog) : bool := forallb uncast_wb (wbody p) && uncast_eb (wret p).
Lemma wuncastb_ok : forall p, wuncastb p = true -> wuncast p.
Proof.
  intros p H. unfold wuncastb in H. apply andb_prop in H as [H1 H2]. split; [|exact (uncast_e_ok _ H2)]. revert H1. induction (wbody p) as [|s l IH]; intros E; [exact Logic.I|].
  cbn [forallb] in E. apply andb_prop in E as [E1 E2]. split; [|exact (IH E2)]. clear E2 IH. destruct s as [s|x t q e]; cbn [uncast_wb uncast_w] in *; [exact (uncast_s_ok s E1)|].
  apply andb_prop in E1 as [E1 E3]. split; [|exact (uncast_e_ok e E3)]. unfold uncast_p. revert E1. induction q as [|a q IH]; intros E; [exact Logic.I|]. cbn [forallb] in E. apply andb_prop in E as [E1 E2]. split; [|exact (IH E2)]. destruct a; try exact Logic.I. exact (uncast_e_ok _ E1).
Qed.
End Casts.

(** everything at once *)
Definition circuit_check (funs : @ftable bn254) (n : nat) (p : @sprog bn254) : bool :=
  match reduce funs n p with
  | Some q => match propagate_typed q with
      | Some q' => match Lower.lower q' with Some w => bounds_ok w && forallb safe_write (wbody w) && fullw w && wuncastb w | None => false end
      | None => false
      end
  | None => false
  end.
(** the call compiles and meets all the conditions of [C58_sound], [C58_complete] and [C58_preimage] *)
Definition meets_all (n : nat) (p : @sprog bn254) : Prop :=
  exists q q' w z p1 p2 c, built sha n p q q' w z p1 p2 c /\ middle_ok w /\ max_ok_prog p2 /\ cache_clean p2 /\ unpacks_checked p2 /\ cache_safe p2.
Lemma circuit_check_ok : forall n p, circuit_check sha n p = true -> meets_all n p.
Proof.
  intros n p H. assert (X : fulls sha n p = true /\ uncasts sha n p).
  { unfold circuit_check, fulls, uncasts in *. destruct (reduce sha n p) as [q|]; [|discriminate H]. destruct (propagate_typed q) as [q'|]; [|discriminate H]. destruct (Lower.lower q') as [w|]; [|discriminate H].
    apply andb_prop in H as [H1 H2]. split; [exact H1|exact (wuncastb_ok w H2)]. }
  destruct X as [H1 H2]. destruct (fulls_ok sha n p H1 H2) as (q & q' & w & z & p1 & p2 & c & A & B & _ & C & D & E & G & _). exists q, q', w, z, p1, p2, c. repeat (split; [assumption|]). assumption.
Qed.
