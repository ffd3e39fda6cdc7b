(** C36: comparing arrays. *)
From Coq Require Import ZArith NArith List Bool Lia.
From Verif Require Import PField IR Interp Bits Zir ArrayCmp Primality.
Import ListNotations.
Open Scope Z_scope.

(** The expression the compiler builds for the comparison of two boolean arrays of the same length evaluates to a boolean,
    true exactly when the arrays hold the same values, in every environment in which the elements have a value. *)
Theorem C36_boolean_arrays : forall (PF : PrimeField) (rho : env_s) (left right : list zexp) (bs cs : list bool), length left = length right ->
  Forall2 (fun e b => sem rho e = Some (VB b)) left bs -> Forall2 (fun e b => sem rho e = Some (VB b)) right cs ->
  exists b, sem rho (bool_array_eq left right) = Some (VB b) /\ (b = true <-> bs = cs).
Proof. intros PF rho l m bs cs. exact (bool_array_eq_sem rho l m bs cs). Qed.

(** The same for arrays of any flattened element type. *)
Theorem C36_arrays : forall (PF : PrimeField) (rho : env_s) (left right : list zexp) (vs ws : list val),
  Forall2 (typed_elem rho) left vs -> Forall2 (typed_elem rho) right ws ->
  Forall2 (fun e1 e2 => zkind e1 = zkind e2 \/ exists a b, zkind e1 = KU a /\ zkind e2 = KU b) left right ->
  exists b, sem rho (array_eq left right) = Some (VB b) /\ (b = true <-> vs = ws).
Proof.
  intros PF rho l m vs ws H1 H2 H3. exists (vals_eqb vs ws). split; [apply array_eq_sem; assumption|apply vals_eqb_eq].
Qed.

(** A concrete case: arrays of 300 booleans over the 254-bit field take two packed elements; only the last element differs. *)
Definition arr36 (last : bool) : list (@zexp bn254) := repeat (ZBVal true) 299 ++ [ZBVal last].
Definition show36 (r : option (@val bn254)) : option bool := match r with Some (VB b) => Some b | _ => None end.
Example C36_case : length (pack (arr36 true)) = 2%nat /\ show36 (sem (fun _ => None) (bool_array_eq (arr36 true) (arr36 false))) = Some false /\ show36 (sem (fun _ => None) (bool_array_eq (arr36 true) (arr36 true))) = Some true.
Proof. split; [|split]; vm_compute; reflexivity. Qed.
