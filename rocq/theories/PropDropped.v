(** C57: a check of the standard library that does not reach the constraints. *)
From Coq Require Import String Ascii.
From Coq Require Import ZArith NArith List Bool Lia Permutation.
From Verif Require Import Typed Writes Src SrcTy TProp TPropOk TPropProg PropTProp Reduce ReduceRen ReduceExp ReduceSimple ReduceBody Lower PropReduce ReduceOnce.
From Verif Require Import PField SMap Concrete IR IRSpec Wf Interp Bits Optimizer OptimizerProofs OptPipeline OptExtra Flat Zir Codegen CgProg CgEnd CgCheck PropIR Primality CgExamples PropCodegen UintOpt Panic DeadCode NoFail PropCompile Source PropSource PropChecked ZProp ZPropStmt PropFold UintCheck PropUint
  Str Abi Typed Flatten FlattenOps FlattenSim FlattenRun FlattenEnd Enforce PropTyped Writes Redefine WritesVal WritesExp WritesChoose WritesRun WritesEnd WritesWf Bounds PropWrites PropWEnd PropSrcEnd.
From Verif Require Import Std StdRun Edwards StdSpec StdEc StdTy PropStd.
Import ListNotations.
Open Scope list_scope.
Open Scope Z_scope.

(** A call of unpack whose result is not used is removed as dead code, and with it the check that the argument fits: def main(private field x) -> field { bool[8] b = unpack::<8>(x); return x; }
    rejects 256, the constraints compiled from it accept 256. *)
Definition main_range : @sprog bn254 := mkSProg [(Src.src 0, CField, true)] [Src.SDef (Src.src 1) (bits_ty 8) (SCall [CField] (bits_ty 8) f_unpack [SOp (OUVal W32 8) []] [SId CField (Src.src 0)])] (SId CField (Src.src 0)) CField.
Lemma main_range_ok : source_ok std main_range.
Proof.
  split; [exact std_ok|]. split; [split; [intros f' gs' ts' t' gens ps body ret H; exact (proj1 (std_srcok _ _ _ _ _ _ _ _ H))|reflexivity]|].
  split; [|repeat (constructor; [intros J; cbn in J; intuition discriminate|]); constructor].
  split; [repeat constructor|]. eexists. unfold main_range. cbn [sbody sargs sret sretty]. split.
  - eapply XScons; [|apply XSnil]. apply SrcTy.XDef; [exact Logic.I|left; reflexivity|]. eapply XCall; [apply (gens_typed _ [8]); repeat constructor; lia| |].
    + repeat constructor.
    + apply XCons; [apply SrcTy.XId; reflexivity|apply XNil].
  - apply SrcTy.XId. reflexivity.
Qed.
Lemma main_range_apart : calls_apart std main_range.
Proof. split; [intros f' gs' ts' t' gens ps body ret H; exact (proj2 (std_srcok _ _ _ _ _ _ _ _ H))|reflexivity]. Qed.
Definition sat_c (w : @env bn254) (s : @stmt bn254) : bool := match s with Constraint q l _ => Feqb (eval_quad w q) (eval_lin w l) | _ => true end.
Definition range_run : option (bool * list Z * list Z) :=
  match reduce std 20 main_range with
  | Some q => match propagate_typed q with
      | Some q' => match Lower.lower q' with
          | Some w => match wcompile w with
              | Some z => match propagate z with
                  | Some p1 => match analyse p1 with
                      | Some p2 => match compile p2 with
                          | Some c => match exec_prog (exec_solver (fun _ _ => None)) (pargs c) (flat_stmts (pstmts c)) [of_Z 256] with
                              | Done a _ => Some (bounds_ok w && Feqb (env_of a vone) PField.f1 && forallb (sat_c (env_of a)) (flat_stmts (pstmts c)), map (fun x => fval (env_of a (pid x))) (pargs c), [fval (env_of a (vpub 0))])
                              | _ => None
                              end
                          | None => None
                          end
                      | None => None
                      end
                  | None => None
                  end
              | None => None
              end
          | None => None
          end
      | None => None
      end
  | None => None
  end.
Lemma range_run_ok : range_run = Some (true, [256], [256]).
Proof. vm_compute. reflexivity. Qed.
Lemma sat_c_ok : forall w ss, forallb (sat_c w) ss = true -> sat w ss.
Proof. intros w ss H. apply Forall_forall. intros s I. pose proof (proj1 (forallb_forall _ _) H s I) as E. destruct s as [q l e| |]; try exact Logic.I. cbn [sat_c sat_stmt] in *. destruct (Feqb_spec (eval_quad w q) (eval_lin w l)) as [Q|]; [exact Q|discriminate E]. Qed.
Theorem C57_dropped_check_refuted : exists q q' w z p1 p2 c (a : @env bn254), source_ok std main_range /\ calls_apart std main_range /\ built std 20 main_range q q' w z p1 p2 c /\ satisfies a c /\
  map (fun x => fval (a (pid x))) (pargs c) = [256] /\ fval (a (vpub 0)) = 256 /\ forall k, srun (scall std (4 + k)) main_range [VField (of_Z 256)] = Failed.
Proof.
  pose proof range_run_ok as H. unfold range_run in H. destruct (reduce std 20 main_range) as [q|] eqn:E1; [|discriminate H]. destruct (propagate_typed q) as [q'|] eqn:E2; [|discriminate H]. destruct (Lower.lower q') as [w|] eqn:E3; [|discriminate H]. destruct (wcompile w) as [z|] eqn:E4; [|discriminate H].
  destruct (propagate z) as [p1|] eqn:E5; [|discriminate H]. destruct (analyse p1) as [p2|] eqn:E6; [|discriminate H]. destruct (compile p2) as [c|] eqn:E7; [|discriminate H]. destruct (exec_prog (exec_solver (fun _ _ => None)) (pargs c) (flat_stmts (pstmts c)) [of_Z 256]) as [a lg| | | |]; try discriminate H.
  apply (f_equal (fun o => match o with Some (b, i, o) => (b, i, o) | None => (false, [], []) end)) in H. cbv beta iota in H.
  pose proof (f_equal (fun t => fst (fst t)) H) as H1. pose proof (f_equal (fun t => snd (fst t)) H) as H2. pose proof (f_equal (fun t => hd 0 (snd t)) H) as H3. cbn [fst snd hd] in H1, H2, H3. clear H. apply andb_prop in H1 as [H0 H1]. apply andb_prop in H0 as [Hb H0].
  exists q, q', w, z, p1, p2, c, (env_of a). split; [exact main_range_ok|]. split; [exact main_range_apart|]. split; [repeat split; assumption|]. split; [split; [destruct (Feqb_spec (env_of a vone) PField.f1) as [Q|]; [exact Q|discriminate H0]|apply sat_c_ok; exact H1]|]. split; [exact H2|]. split; [exact H3|].
  intros k. assert (R : rejects_ f_unpack [8] [CField] (bits_ty 8) [@VField bn254 (of_Z 256)]).
  { apply (C57_unpack bn254 8 (of_Z 256)); [apply Nat.leb_le; vm_compute; reflexivity|apply Z.ltb_lt; vm_compute; reflexivity|apply Nat.leb_le; vm_compute; reflexivity|apply Z.leb_le; vm_compute; reflexivity]. }
  specialize (R k). unfold srun, main_range. cbn [sargs sbody sret map fst]. unfold sexecs. cbn [exec_list obnd snd fst app]. cbn [sexec seval eval_list obnd sem_op fst snd app of_opt map]. change (rbind (fun _ : rid => None) [Src.src 0] [@VField bn254 (of_Z 256)] (Src.src 0)) with (Some (@VField bn254 (of_Z 256))). cbn [of_opt obnd fst snd app]. change (nums [@VUint bn254 W32 8]) with (Some [8]). cbn [of_opt obnd fst snd app].
  unfold value in *. rewrite R. reflexivity.
Qed.
Print Assumptions C57_dropped_check_refuted.
