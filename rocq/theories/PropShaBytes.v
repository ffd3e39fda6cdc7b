(** C58, for one whole circuit over bn254: the hash of three bytes. Every condition of the general theorems is checked here by computing the pipeline inside Coq, so nothing is assumed of the compiled program. *)
From Coq Require Import ZArith NArith List Bool Lia Permutation.
From Verif Require Import Bytes Sha256.
From Verif Require Import Typed Writes Src SrcTy TProp TPropOk TPropProg PropTProp Reduce ReduceRen ReduceExp ReduceSimple ReduceBody Lower PropReduce ReduceOnce.
From Verif Require Import PField SMap Concrete IR IRSpec Interp Bits Optimizer OptimizerProofs OptPipeline OptExtra Flat Zir Codegen CgProg CgEnd CgCheck PropIR Primality CgExamples PropCodegen UintOpt Panic DeadCode NoFail PropCompile Source PropSource PropChecked ZProp ZPropStmt PropFold UintCheck PropUint
  Str Abi Typed Flatten FlattenOps FlattenSim FlattenRun FlattenEnd Enforce PropTyped Writes Redefine WritesVal WritesExp WritesChoose WritesRun WritesEnd WritesWf Bounds PropWrites PropWEnd PropSrcEnd.
From Verif Require Import Std StdRun StdSpec StdTy PropStd Sha ShaRun ShaRound ShaHash ShaPad ShaTy ShaSpec PropSha ShaCirc.
Import ListNotations.
Open Scope list_scope.
Open Scope Z_scope.


Definition hash3 : @sprog bn254 := @call_main bn254 g_bytes [3] [CArray (CUint W8) 3] (u32s 8).
Lemma hash3_meets : meets_all 100 hash3.
Proof. apply circuit_check_ok. vm_compute. reflexivity. Qed.
(** The compiler model accepts sha256Padded<3>, and the circuit means SHA-256: any assignment of its variables, whoever made it, that satisfies the constraints has three bytes as arguments and their hash as outputs; and on any three bytes the witness computation succeeds and outputs their hash. *)
Theorem C58_circuit : exists q q' w z p1 p2 c, built sha 100 hash3 q q' w z p1 p2 c /\
  (forall a : env, satisfies a c -> exists us ws, length us = 3%nat /\ bytes8 us /\ map (fun x => a (pid x)) (pargs c) = map of_Z us /\
    is_words 8 ws /\ map (fun i => a (vpub i)) (seq 0 8) = map of_Z ws /\ be_bytes ws = sha256 us) /\
  (forall ext us, length us = 3%nat -> bytes8 us -> exists a logs ws, exec_prog (exec_solver ext) (pargs c) (flat_stmts (pstmts c)) (map of_Z us) = Done a logs /\
    is_words 8 ws /\ be_bytes ws = sha256 us /\ map (fun i => sget (vpub i) a) (seq 0 8) = map (fun x => Some (of_Z x)) ws).
Proof.
  destruct hash3_meets as (q & q' & w & z & p1 & p2 & c & B & M & Hm & Hc & Hu & Hs). exists q, q', w, z, p1, p2, c. split; [exact B|].
  assert (Hr : (131 <= @required_bits bn254)%nat) by (apply Nat.leb_le; vm_compute; reflexivity). split.
  - intros a Ha. exact (C58_preimage bn254 3 100 q q' w z p1 p2 c a Hr ltac:(unfold N32; cbn; lia) B M Hm Hu Hs Ha).
  - intros ext us L Hb. assert (E : forall wd l, flat_map encode (map (@VUint bn254 wd) l) = map of_Z l) by (intros wd l; induction l as [|x l IH]; [reflexivity|]; cbn [map flat_map encode app]; rewrite IH; reflexivity).
    destruct (C58_padded_bytes (PF := bn254) us Hb ltac:(rewrite L; unfold N32; cbn; lia)) as (ws & Hw & Rw & Ew). rewrite L in Rw.
    destruct (C58_complete bn254 ext g_bytes [3] [CArray (CUint W8) 3] (u32s 8) 100 q q' w z p1 p2 c [VArray (map (VUint W8) us)] (uarr ws) Hr ltac:(repeat constructor) ltac:(repeat constructor; lia) B M Hm Hc) as (a & logs & X & Y).
    + constructor; [|constructor]. apply type_array. split; [rewrite map_length; exact L|]. apply Forall_forall. intros v I. apply in_map_iff in I as [x [<- I]]. split; [reflexivity|]. unfold bytes8 in Hb. rewrite Forall_forall in Hb. exact (Hb x I).
    + exact Rw.
    + unfold encode_values in X. cbn [flat_map encode] in X. rewrite app_nil_r, E in X. exists a, logs, ws. split; [exact X|]. split; [exact Hw|]. split; [exact Ew|].
      unfold uarr in Y. cbn [encode] in Y. rewrite E, map_map in Y. exact Y.
Qed.
Print Assumptions C58_circuit.
