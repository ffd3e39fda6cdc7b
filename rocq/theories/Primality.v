(** Primality of the BN254 scalar field modulus (zokrates_field/src/bn128.rs:4), by Pocklington certificates. Used to
    instantiate the examples with the default ZoKrates field. *)
From Coq Require Import ZArith Znumtheory Zpow_facts List Bool Lia Wf_nat.
From Verif Require Import PField Concrete.
Import ListNotations.
Open Scope Z_scope.

Section Pock.
Variables (N a : Z) (fs : list (Z * Z)).
Definition fprod : Z := fold_right (fun re acc => fst re ^ snd re * acc) 1 fs.
Hypothesis HN : 1 < N.
Hypothesis Hfs : Forall (fun re => prime (fst re) /\ 0 < snd re /\ (fst re | N - 1)) fs.
Hypothesis HF : (fprod | N - 1).
Hypothesis HFN : N < fprod * fprod.
Hypothesis Hone : a ^ (N - 1) mod N = 1.
Hypothesis Hgcd : Forall (fun re => Z.gcd (a ^ ((N - 1) / fst re) - 1) N = 1) fs.

Lemma mod_div : forall x y d, (d | y) -> 0 < d -> x mod y = 1 -> 1 < d -> 0 < y -> x mod d = 1.
Proof.
  intros x y d [k Hk] Hd H H1 Hy. rewrite (Z_div_mod_eq_full x y), H, Hk.
  replace (k * d * (x / (k * d)) + 1) with (1 + (k * (x / (k * d))) * d) by ring. rewrite Z_mod_plus_full. apply Z.mod_small. lia.
Qed.

Lemma ord_bound : forall d, 1 < d -> (d | N) -> fprod <= d - 1.
Proof.
  intros d Hd HdN. set (P := fun n : nat => (0 < n)%nat /\ a ^ Z.of_nat n mod d = 1).
  assert (HP1 : a ^ (N - 1) mod d = 1) by (apply (mod_div _ N); auto; lia).
  destruct (dec_inh_nat_subset_has_unique_least_element P) as [o [[[Ho1 Ho2] Hmin] _]].
  { intros n. unfold P. destruct (Nat.ltb_spec 0 n); destruct (Z.eq_dec (a ^ Z.of_nat n mod d) 1); auto; right; lia. }
  { exists (Z.to_nat (N - 1)). unfold P. split; [lia|]. rewrite Z2Nat.id by lia. auto. }
  assert (Hpow : forall k, 0 <= k -> a ^ (Z.of_nat o * k) mod d = 1).
  { intros k Hk. rewrite Z.pow_mul_r by lia. rewrite Zpower_mod, Ho2 by lia. rewrite Z.pow_1_l by lia. apply Z.mod_small. lia. }
  assert (Hdiv : forall n, 0 <= n -> a ^ n mod d = 1 -> (Z.of_nat o | n)).
  { intros n Hn E. pose proof (Z_div_mod_eq_full n (Z.of_nat o)) as Hq. pose proof (Z.mod_pos_bound n (Z.of_nat o) ltac:(lia)) as Hr.
    set (q := n / Z.of_nat o) in *. set (r := n mod Z.of_nat o) in *. assert (0 <= q) by (unfold q; apply Z.div_pos; lia).
    assert (Er : a ^ r mod d = 1).
    { rewrite Hq, Z.pow_add_r in E by lia. rewrite Z.mul_mod, Hpow, Z.mul_1_l, Z.mod_mod in E by lia. auto. }
    destruct (Z.eq_dec r 0) as [E0|E0]; [exists q; lia|].
    assert (o <= Z.to_nat r)%nat; [|lia]. apply Hmin. unfold P. split; [lia|]. rewrite Z2Nat.id by lia. auto. }
  destruct (Hdiv (N - 1) ltac:(lia) HP1) as [m Hm].
  assert (Hm0 : 0 < m) by nia.
  (* every prime of the factored part is coprime to the cofactor *)
  assert (Hco : Forall (fun re => rel_prime (fst re) m) fs).
  { apply Forall_forall. intros [r e] Hin. rewrite Forall_forall in Hfs, Hgcd. destruct (Hfs _ Hin) as [Hp [_ Hr]]. specialize (Hgcd _ Hin). cbn [fst] in *.
    apply prime_rel_prime; auto. intros [k Hk].
    pose proof (prime_ge_2 _ Hp). assert (Hk0 : 0 <= k) by nia.
    assert (Edv : (N - 1) / r = Z.of_nat o * k) by (rewrite Hm, Hk; replace (k * r * Z.of_nat o) with ((Z.of_nat o * k) * r) by ring; apply Z_div_mult; lia).
    pose proof (Hpow k Hk0) as H1. rewrite <- Edv in H1. set (x := a ^ ((N - 1) / r)) in *.
    assert (Hd1 : (d | x - 1)). { apply Z.mod_divide; [lia|]. rewrite Zminus_mod, H1, (Z.mod_small 1 d) by lia. reflexivity. }
    pose proof (Z.gcd_greatest _ _ _ Hd1 HdN) as Hg. rewrite Hgcd in Hg. apply Z.divide_1_r_nonneg in Hg; lia. }
  assert (Hcp : rel_prime fprod m).
  { unfold fprod. clear HF HFN Hgcd. induction Hco as [|[r e] l Hr Hl IH]; cbn [fold_right fst snd] in *.
    - apply rel_prime_1.
    - inversion Hfs as [|? ? [_ [He _]] Hfs']; subst. apply rel_prime_sym, rel_prime_mult; [|apply rel_prime_sym; auto].
      cbn [snd] in He. apply rel_prime_Zpower_r; [lia|]. apply rel_prime_sym; auto. }
  assert (Hfo : (fprod | Z.of_nat o)). { apply (Gauss fprod m); auto. rewrite <- Hm. auto. }
  assert (Hle : (o <= Z.to_nat (d - 1))%nat).
  { set (l := map (fun i => a ^ Z.of_nat i mod d) (seq 0 o)). set (t := map (fun i => Z.of_nat i) (seq 1 (Z.to_nat (d - 1)))).
    assert (Hinv : forall i, (i < o)%nat -> (a ^ Z.of_nat i * a ^ (Z.of_nat o - Z.of_nat i)) mod d = 1).
    { intros i Hi. rewrite <- Z.pow_add_r by lia. replace (Z.of_nat i + (Z.of_nat o - Z.of_nat i)) with (Z.of_nat o) by ring. auto. }
    assert (Hnd : NoDup l).
    { unfold l. assert (Hij : forall i j, (i < j < o)%nat -> a ^ Z.of_nat i mod d <> a ^ Z.of_nat j mod d).
      { intros i j Hij E. assert (E2 : a ^ (Z.of_nat j - Z.of_nat i) mod d = 1).
        { pose proof (Hinv i ltac:(lia)) as H1. set (u := a ^ (Z.of_nat o - Z.of_nat i)) in *.
          replace (Z.of_nat j) with (Z.of_nat i + (Z.of_nat j - Z.of_nat i)) in E by ring. rewrite Z.pow_add_r in E by lia.
          set (x := a ^ Z.of_nat i) in *. set (y := a ^ (Z.of_nat j - Z.of_nat i)) in *.
          assert (E3 : (u * (x mod d)) mod d = (u * ((x * y) mod d)) mod d) by (rewrite E; auto).
          rewrite !Zmult_mod_idemp_r in E3. replace (u * (x * y)) with ((x * u) * y) in E3 by ring. rewrite (Z.mul_mod (x * u) y d), H1, Z.mul_1_l, Z.mod_mod in E3 by lia.
          rewrite <- E3, Z.mul_comm. auto. }
        assert (o <= Z.to_nat (Z.of_nat j - Z.of_nat i))%nat; [|lia]. apply Hmin. unfold P. split; [lia|]. rewrite Z2Nat.id by lia. auto. }
      assert (Hg : forall n s, (s + n <= o)%nat -> NoDup (map (fun i => a ^ Z.of_nat i mod d) (seq s n))).
      { induction n as [|n IH]; intros s Hs; cbn [seq map]; constructor; [|apply IH; lia].
        intros Hin. apply in_map_iff in Hin as [j [E Hj]]. apply in_seq in Hj. apply (Hij s j); [lia|auto]. }
      apply Hg. lia. }
    assert (Hin : incl l t).
    { intros z Hz. unfold l in Hz. apply in_map_iff in Hz as [i [<- Hi]]. apply in_seq in Hi. pose proof (Z.mod_pos_bound (a ^ Z.of_nat i) d ltac:(lia)) as Hb.
      assert (Hnz : a ^ Z.of_nat i mod d <> 0).
      { intros E. pose proof (Hinv i ltac:(lia)) as H1. rewrite Z.mul_mod, E, Z.mul_0_l, Z.mod_0_l in H1 by lia. lia. }
      unfold t. apply in_map_iff. exists (Z.to_nat (a ^ Z.of_nat i mod d)). split; [lia|]. apply in_seq. lia. }
    pose proof (NoDup_incl_length Hnd Hin) as H. unfold l, t in H. rewrite !map_length, !seq_length in H. auto. }
  apply Z.divide_pos_le in Hfo; lia.
Qed.

Theorem pocklington : prime N.
Proof.
  destruct (prime_dec N) as [|Hn]; auto. exfalso. apply not_prime_divide in Hn as [d [Hd [k Hk]]]; [|lia].
  assert (0 < k) by nia. assert (0 < fprod).
  { unfold fprod. clear - Hfs. induction fs as [|[r e] l IH]; cbn [fold_right fst snd]; [lia|]. inversion Hfs as [|? ? [Hp [He _]] Hr]; subst. cbn [fst snd] in *.
    specialize (IH Hr). pose proof (prime_ge_2 _ Hp). pose proof (Z.pow_pos_nonneg r e ltac:(lia) ltac:(lia)). nia. }
  pose proof (ord_bound d ltac:(lia) ltac:(exists k; auto)). assert (1 < k) by nia.
  pose proof (ord_bound k ltac:(lia) ltac:(exists d; lia)). nia.
Qed.
End Pock.

(** checking certificates by computation *)
Definition pock_check (N a : Z) (fs : list (Z * Z)) : bool :=
  let P := fold_right (fun re acc => fst re ^ snd re * acc) 1 fs in
  (1 <? N) && forallb (fun re => (0 <? snd re) && (((N - 1) mod fst re) =? 0)) fs && ((N - 1) mod P =? 0) && (N <? P * P) &&
  (Zpow_mod a (N - 1) N =? 1) && forallb (fun re => Z.gcd (Zpow_mod a ((N - 1) / fst re) N - 1) N =? 1) fs.
Lemma pock_check_ok : forall N a fs, Forall (fun re => prime (fst re)) fs -> pock_check N a fs = true -> prime N.
Proof.
  intros N a fs Hp H. unfold pock_check in H. repeat (apply andb_prop in H as [H ?]).
  apply Z.ltb_lt in H. rewrite forallb_forall in *. rewrite Forall_forall in Hp.
  apply Z.eqb_eq in H1, H3. apply Z.ltb_lt in H2.
  apply (pocklington N a fs); auto.
  - apply Forall_forall. intros re Hin. specialize (H4 re Hin). apply andb_prop in H4 as [A B]. apply Z.ltb_lt in A. apply Z.eqb_eq in B.
    split; [auto|]. split; auto. apply Z.mod_divide; auto. pose proof (prime_ge_2 _ (Hp re Hin)). lia.
  - unfold fprod. apply Z.mod_divide; auto. intros E. rewrite E in H2. lia.
  - rewrite <- Zpow_mod_correct by lia. auto.
  - apply Forall_forall. intros re Hin. specialize (H0 re Hin). apply Z.eqb_eq in H0. rewrite Zpow_mod_correct in H0 by lia.
    transitivity (Z.gcd ((a ^ ((N - 1) / fst re)) mod N - 1) N); [|exact H0]. remember (a ^ ((N - 1) / fst re)) as x.
    rewrite (Z.gcd_comm (x - 1)), (Z.gcd_comm (x mod N - 1)).
    rewrite <- (Z.gcd_mod (x - 1) N), <- (Z.gcd_mod (x mod N - 1) N) by lia. rewrite (Zminus_mod x 1), (Zminus_mod (x mod N) 1), Zmod_mod. reflexivity.
Qed.
(** two exponentiations instead of four, for N - 1 = 2^e q r ... *)
Definition pock_fast_check (N a q r e : Z) : bool :=
  let t := Zpow_mod a ((N - 1) / (2 * q)) N in let u := Zpow_mod a ((N - 1) / r) N in let h := Zpow_mod t q N in
  (1 <? N) && (1 <? q) && (1 <? r) && (0 <? e) && ((N - 1) mod (2 ^ e * (q * r)) =? 0) && (N <? (2 ^ e * (q * r)) * (2 ^ e * (q * r))) &&
  ((h * h) mod N =? 1) && (Z.gcd (h - 1) N =? 1) && (Z.gcd (t * t mod N - 1) N =? 1) && (Z.gcd (u - 1) N =? 1).
Lemma gcd_mod_sub : forall x N, 1 < N -> Z.gcd (x mod N - 1) N = 1 -> Z.gcd (x - 1) N = 1.
Proof.
  intros x N HN H. transitivity (Z.gcd (x mod N - 1) N); [|exact H]. clear H. rewrite (Z.gcd_comm (x - 1)), (Z.gcd_comm (x mod N - 1)).
  rewrite <- (Z.gcd_mod (x - 1) N), <- (Z.gcd_mod (x mod N - 1) N) by lia. rewrite (Zminus_mod x 1), (Zminus_mod (x mod N) 1), Zmod_mod. reflexivity.
Qed.
Lemma pock_fast : forall N a q r e, prime q -> prime r -> pock_fast_check N a q r e = true -> prime N.
Proof.
  intros N a q r e Hq Hr H. unfold pock_fast_check in H. cbv zeta in H. repeat (apply andb_prop in H as [H ?]).
  repeat match goal with X : (_ <? _) = true |- _ => apply Z.ltb_lt in X | X : (_ =? _) = true |- _ => apply Z.eqb_eq in X end.
  rewrite !Zpow_mod_correct in * by lia.
  assert (HF : (2 ^ e * (q * r) | N - 1)) by (apply Z.mod_divide; [nia|auto]).
  destruct HF as [k Hk].
  assert (He : 2 ^ e = 2 * 2 ^ (e - 1)) by (rewrite <- Z.pow_succ_r by lia; f_equal; lia).
  pose proof (Z.pow_pos_nonneg 2 (e - 1) ltac:(lia) ltac:(lia)). set (m := 2 ^ (e - 1)) in *. rewrite He in *. assert (0 < k) by nia.
  assert (E1 : (N - 1) / (2 * q) = k * m * r) by (rewrite Hk; replace (k * (2 * m * (q * r))) with (k * m * r * (2 * q)) by ring; apply Z.div_mul; lia).
  assert (E2 : (N - 1) / 2 = k * m * r * q) by (rewrite Hk; replace (k * (2 * m * (q * r))) with (k * m * r * q * 2) by ring; apply Z.div_mul; lia).
  assert (E3 : (N - 1) / q = k * m * r + k * m * r) by (rewrite Hk; replace (k * (2 * m * (q * r))) with ((k * m * r + k * m * r) * q) by ring; apply Z.div_mul; lia).
  assert (E4 : N - 1 = k * m * r * q + k * m * r * q) by (rewrite Hk; ring).
  rewrite E1 in *. set (x := k * m * r) in *. assert (Hx : 0 <= x) by (unfold x; nia). assert (Hxq : 0 <= x * q) by nia.
  assert (Eh : (a ^ x mod N) ^ q mod N = a ^ (x * q) mod N) by (rewrite Zpower_mod, Z.mod_mod, <- Zpower_mod, <- Z.pow_mul_r by lia; auto).
  apply (pocklington N a [(2, e); (q, 1); (r, 1)]); auto.
  - apply Forall_cons; [|apply Forall_cons; [|apply Forall_cons; [|apply Forall_nil]]]; cbn [fst snd]; (split; [auto using prime_2|split; [lia|]]).
    + exists (x * q). rewrite E4. ring.
    + exists (x + x). rewrite E4. ring.
    + exists (k * (2 * m) * q). rewrite Hk. ring.
  - unfold fprod. cbn [fold_right fst snd]. rewrite He, !Z.pow_1_r, Z.mul_1_r. exists k. auto.
  - unfold fprod. cbn [fold_right fst snd]. rewrite He, !Z.pow_1_r, Z.mul_1_r. auto.
  - rewrite E4, Z.pow_add_r by lia. rewrite Eh in *. rewrite <- Z.mul_mod in * by lia. auto.
  - apply Forall_cons; [|apply Forall_cons; [|apply Forall_cons; [|apply Forall_nil]]]; cbn [fst snd].
    + rewrite E2. apply gcd_mod_sub; [lia|]. rewrite <- Eh. auto.
    + rewrite E3, Z.pow_add_r by lia. apply gcd_mod_sub; [lia|]. rewrite Z.mul_mod by lia. auto.
    + apply gcd_mod_sub; [lia|]. auto.
Qed.
Ltac primes := repeat first [apply Forall_cons; [cbn [fst]; first [assumption | apply is_prime_spec; vm_compute; reflexivity]|] | apply Forall_nil].
Ltac pock a fs := apply (pock_check_ok _ a fs); [primes|vm_compute; reflexivity].

Definition bn254_r : Z := 21888242871839275222246405745257275088548364400416034343698204186575808495617.
Theorem bn254_prime : prime bn254_r.
Proof.
  assert (prime 1637) by (pock 2 [(409, 1)]).
  assert (prime 639533339) by (pock 2 [(1637, 1); (853, 1)]).
  assert (prime 65865678001877903) by (pock 5 [(1637, 1); (379, 1); (83, 1); (2, 1); (639533339, 1)]).
  assert (prime 20963) by (pock 2 [(223, 1)]).
  assert (prime 41927) by (pock 2 [(20963, 1)]).
  assert (prime 1593227) by (pock 2 [(41927, 1)]).
  assert (prime 13818364434197438864469338081) by (pock 3 [(1593227, 1); (823, 1); (2, 5); (5, 1); (65865678001877903, 1)]).
  apply (pock_fast bn254_r 5 983 13818364434197438864469338081 28); [apply is_prime_spec; vm_compute; reflexivity|assumption|vm_compute; reflexivity].
Qed.
Definition bn254 : PrimeField := {| pp := bn254_r; pp_prime := bn254_prime |}.
Print Assumptions bn254_prime.
