(** C29: witness files. *)
From Coq Require Import ZArith List Bool Lia.
From Verif Require Import PField SMap Concrete Primality IR IRSpec Interp Optimizer PropBackend Bytes WitnessIO.
Import ListNotations.
Open Scope Z_scope.

(** Reading back the bytes written for a witness gives the same witness, whatever follows it in the stream. A witness is a map sorted by
    variable id (a BTreeMap); its ids are isize and its size a usize. *)
Theorem C29_roundtrip : forall (PF : PrimeField) (w : smap F) rest, ssorted w -> Forall (fun e => isize_ok (fst e)) w -> usize_ok (Z.of_nat (length w)) ->
  read_witness (write_witness w ++ rest) = Some (w, rest).
Proof. intros PF. exact witness_roundtrip. Qed.
Print Assumptions C29_roundtrip.
(** Every truncated file is rejected. *)
Theorem C29_truncated : forall (PF : PrimeField) (w : smap F) pre suf, ssorted w -> Forall (fun e => isize_ok (fst e)) w -> usize_ok (Z.of_nat (length w)) ->
  write_witness w = pre ++ suf -> suf <> [] -> read_witness pre = None.
Proof.
  intros PF w pre suf Hs Hk Hn E Hsuf. eapply prefix_rejected; [apply stable_read_witness| |exact E|exact Hsuf].
  rewrite <- (app_nil_r (write_witness w)). apply witness_roundtrip; assumption.
Qed.
Print Assumptions C29_truncated.
(** The files accepted are exactly: the number of entries, then that many pairs of an isize and a canonical field element (an element not below the
    modulus is rejected); when an id is repeated the last value counts. *)
Theorem C29_accepted : forall (PF : PrimeField) bs (w : smap F) rest, Forall isbyte bs ->
  (read_witness bs = Some (w, rest) <->
   exists es, usize_ok (Z.of_nat (length es)) /\ Forall (fun e => isize_ok (fst e)) es /\
     bs = le 8 (Z.of_nat (length es)) ++ flat_map (fun e => le 8 (fst e) ++ le limb_bytes (fval (snd e))) es ++ rest /\
     w = fold_left (fun m e => sput (fst e) (snd e) m) es []).
Proof. intros PF. exact read_witness_iff. Qed.
Print Assumptions C29_accepted.
(** The witness computed by the interpreter can always be written and read back (ids and size permitting). *)
Theorem C29_computed_witness : forall (PF : PrimeField) solve args ss inputs w log rest, exec_prog solve args ss inputs = Done w log ->
  Forall (fun e => isize_ok (fst e)) w -> usize_ok (Z.of_nat (length w)) -> read_witness (write_witness w ++ rest) = Some (w, rest).
Proof. intros PF solve args ss inputs w log rest H. apply witness_roundtrip. eapply exec_prog_sorted. exact H. Qed.
Print Assumptions C29_computed_witness.

(** Example: ~one, _0 and ~out_0 over bn254, in 8 + 3 * (8 + 32) bytes; negative ids in two's complement *)
Definition ex_w : smap (@F bn254) := [(-1, of_Z 300); (0, f1); (1, of_Z (-1))].
Example C29_nonvacuous : ssorted ex_w /\ Forall (fun e => isize_ok (fst e)) ex_w /\ usize_ok (Z.of_nat (length ex_w)) /\
  length (write_witness ex_w) = 128%nat /\ firstn 18 (write_witness ex_w) = [3; 0; 0; 0; 0; 0; 0; 0; 255; 255; 255; 255; 255; 255; 255; 255; 44; 1] /\
  @read_witness bn254 (firstn 127 (write_witness ex_w)) = None.
Proof.
  split; [unfold ex_w; repeat (constructor; [repeat (constructor; [cbn; lia|]); constructor|]); constructor|].
  split; [unfold ex_w, isize_ok; repeat (constructor; [cbn [fst]; lia|]); constructor|]. split; [vm_compute; split; [discriminate|reflexivity]|].
  split; [vm_compute; reflexivity|]. split; vm_compute; reflexivity.
Qed.
