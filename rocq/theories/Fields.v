(** The modulus of the largest scalar field a program can be over (zokrates_field/src/bw6_761.rs) is prime: a Pocklington certificate, checked by
    computation. With BN254 (Primality.v) it instantiates the model of the field with fields of the code of both sizes, 32 and 48 bytes. *)
From Coq Require Import ZArith Znumtheory List Bool Lia.
From Verif Require Import PField Concrete Primality.
Import ListNotations.
Open Scope Z_scope.

Definition bw6_761_r : Z := 258664426012969094010652733694893533536393512754914660539884262666720468348340822774968888139573360124440321458177.
Theorem bw6_761_prime : prime bw6_761_r.
Proof.
  assert (prime 1693) by (pock 2 [(47, 1)]).
  assert (prime 8583511) by (pock 2 [(1693, 1); (13, 2)]).
  assert (prime 12743) by (pock 2 [(277, 1)]).
  assert (prime 5301089) by (pock 2 [(12743, 1)]).
  assert (prime 5187222954756607) by (pock 2 [(8583511, 1); (5301089, 1)]).
  assert (prime 7880826209898991662826602799) by (pock 2 [(5187222954756607, 1)]).
  assert (prime 76872275827) by (pock 2 [(443, 1); (229, 1); (23, 1)]).
  assert (prime 1844934619849) by (pock 2 [(76872275827, 1)]).
  assert (prime 111286271775829695101) by (pock 2 [(1844934619849, 1)]).
  assert (prime 222572543551659390203) by (pock 2 [(111286271775829695101, 1)]).
  assert (prime 97931919162730131689321) by (pock 2 [(222572543551659390203, 1)]).
  assert (prime 3721412928183745004194199) by (pock 2 [(97931919162730131689321, 1)]).
  assert (prime 73387170334035996766247648424745786170238574695861388454532790956181) by (pock 2 [(7880826209898991662826602799, 1); (3721412928183745004194199, 1)]).
  pock 2 [(73387170334035996766247648424745786170238574695861388454532790956181, 1)].
Qed.
Definition bw6_761 : PrimeField := {| pp := bw6_761_r; pp_prime := bw6_761_prime |}.
