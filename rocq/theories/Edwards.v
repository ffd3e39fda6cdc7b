(** Twisted Edwards curves a u^2 + v^2 = 1 + d u^2 v^2 over a prime field: where a is a square and d is not, the addition law is total on the curve and makes
    it a commutative group. Pure mathematics, used in PropStd.v to say what the functions of zokrates_stdlib/stdlib/ecc compute. *)
From Coq Require Import ZArith List Bool Lia Ring Field.
From Verif Require Import PField.
Import ListNotations.
Open Scope Z_scope.

Section Edwards.
Context {PF : PrimeField}.
Add Field Fed : F_field_th.

(** ** Twisted Edwards curves *)
(** a u^2 + v^2 = 1 + d u^2 v^2 *)
Definition on_curve (a d : F) (P : F * F) : Prop :=
  fadd (fmul a (fmul (fst P) (fst P))) (fmul (snd P) (snd P)) = fadd PField.f1 (fmul d (fmul (fmul (fst P) (fst P)) (fmul (snd P) (snd P)))).
Definition ed_den (d : F) (P Q : F * F) : F := fmul (fmul (fmul (fmul d (fst P)) (fst Q)) (snd P)) (snd Q).
(** the addition law of twisted Edwards curves *)
Definition ed_sum (a d : F) (P Q : F * F) : F * F :=
  (fdiv (fadd (fmul (fst P) (snd Q)) (fmul (snd P) (fst Q))) (fadd PField.f1 (ed_den d P Q)),
   fdiv (fsub (fmul (snd P) (snd Q)) (fmul (fmul a (fst P)) (fst Q))) (fsub PField.f1 (ed_den d P Q))).
Definition ed_defined (d : F) (P Q : F * F) : Prop := fadd PField.f1 (ed_den d P Q) <> f0 /\ fsub PField.f1 (ed_den d P Q) <> f0.
Lemma fmul_zero : forall x y : F, fmul x y = f0 -> x = f0 \/ y = f0.
Proof.
  intros x y H. destruct (Feqb_spec x f0) as [E|E]; [left; exact E|right]. transitivity (fmul (fdiv PField.f1 x) (fmul x y)); [field; exact E|]. rewrite H. ring.
Qed.
Lemma ed_closed : forall a d P Q, on_curve a d P -> on_curve a d Q -> ed_defined d P Q -> on_curve a d (ed_sum a d P Q).
Proof.
  intros a d [u1 v1] [u2 v2] H1 H2 [D1 D2]. unfold on_curve, ed_sum, ed_defined, ed_den in *. cbn [fst snd] in *.
  set (e := fmul (fmul (fmul (fmul d u1) u2) v1) v2) in *. set (X := fadd (fmul u1 v2) (fmul v1 u2)). set (Y := fsub (fmul v1 v2) (fmul (fmul a u1) u2)).
  set (A1 := fadd (fmul a (fmul u1 u1)) (fmul v1 v1)) in *. set (A2 := fadd (fmul a (fmul u2 u2)) (fmul v2 v2)) in *.
  assert (T : fsub (fadd (fmul a (fmul (fmul X X) (fmul (fsub PField.f1 e) (fsub PField.f1 e)))) (fmul (fmul Y Y) (fmul (fadd PField.f1 e) (fadd PField.f1 e)))) (fmul d (fmul (fmul X X) (fmul Y Y))) =
    fmul (fsub A1 (fmul A2 (fmul d (fmul (fmul u1 u1) (fmul v1 v1))))) (fsub A2 (fmul A1 (fmul d (fmul (fmul u2 u2) (fmul v2 v2)))))) by (unfold X, Y, A1, A2, e; ring).
  assert (B1 : fsub A1 (fmul A2 (fmul d (fmul (fmul u1 u1) (fmul v1 v1)))) = fmul (fadd PField.f1 e) (fsub PField.f1 e)) by (rewrite H1, H2; unfold e; ring).
  assert (B2 : fsub A2 (fmul A1 (fmul d (fmul (fmul u2 u2) (fmul v2 v2)))) = fmul (fadd PField.f1 e) (fsub PField.f1 e)) by (rewrite H1, H2; unfold e; ring).
  rewrite B1, B2 in T. clearbody X Y e. clear - T D1 D2.
  set (p := fadd PField.f1 e) in *. set (q := fsub PField.f1 e) in *. clearbody p q.
  assert (T' : fadd (fmul a (fmul (fmul X X) (fmul q q))) (fmul (fmul Y Y) (fmul p p)) = fadd (fmul (fmul p q) (fmul p q)) (fmul d (fmul (fmul X X) (fmul Y Y)))) by (rewrite <- T; ring).
  transitivity (fdiv (fadd (fmul a (fmul (fmul X X) (fmul q q))) (fmul (fmul Y Y) (fmul p p))) (fmul (fmul p q) (fmul p q))); [field; split; assumption|]. rewrite T'. field. split; assumption.
Qed.

Section Complete.
Variables a d s : F.
Hypothesis Ha : a = fmul s s.
Hypothesis Hd : forall x, fmul x x <> d.
Hypothesis H2 : fadd PField.f1 PField.f1 <> f0.
Lemma d_nonzero : d <> f0.
Proof. intros E. apply (Hd f0). rewrite E. ring. Qed.
Lemma nonzero_l : forall x y, fmul x y <> f0 -> x <> f0.
Proof. intros x y H E. apply H. rewrite E. ring. Qed.
Lemma nonzero_r : forall x y, fmul x y <> f0 -> y <> f0.
Proof. intros x y H E. apply H. rewrite E. ring. Qed.
Lemma no_unit : forall P Q, on_curve a d P -> on_curve a d Q -> fmul (ed_den d P Q) (ed_den d P Q) <> PField.f1.
Proof.
  intros [u1 v1] [u2 v2] C1 C2 E. unfold on_curve, ed_den in *. cbn [fst snd] in *. set (e := fmul (fmul (fmul (fmul d u1) u2) v1) v2) in *.
  assert (N : e <> f0) by (intros Z; rewrite Z in E; apply F_1_neq_0; rewrite <- E; ring).
  assert (Nv2 : v2 <> f0) by (exact (nonzero_r _ _ N)). pose proof (nonzero_l _ _ N) as N1. assert (Nv1 : v1 <> f0) by (exact (nonzero_r _ _ N1)). pose proof (nonzero_l _ _ N1) as N3. pose proof (nonzero_l _ _ N3) as N4. assert (Nu1 : u1 <> f0) by (exact (nonzero_r _ _ N4)).
  assert (K : fmul (fmul d (fmul (fmul u1 u1) (fmul v1 v1))) (fadd (fmul a (fmul u2 u2)) (fmul v2 v2)) = fadd (fmul a (fmul u1 u1)) (fmul v1 v1)).
  { rewrite C2, C1. transitivity (fadd (fmul d (fmul (fmul u1 u1) (fmul v1 v1))) (fmul e e)); [unfold e; ring|]. rewrite E. ring. }
  assert (S : forall t : F, fmul t t = PField.f1 -> fmul (fadd (fmul s u1) (fmul t (fmul e v1))) (fadd (fmul s u1) (fmul t (fmul e v1))) = fmul d (fmul (fmul (fmul u1 v1) (fadd (fmul s u2) (fmul t v2))) (fmul (fmul u1 v1) (fadd (fmul s u2) (fmul t v2))))).
  { intros t Ht. transitivity (fadd (fadd (fmul (fmul s s) (fmul u1 u1)) (fmul (fmul (fmul t t) (fmul e e)) (fmul v1 v1))) (fmul (fadd PField.f1 PField.f1) (fmul (fmul s t) (fmul e (fmul u1 v1))))); [ring|].
    rewrite Ht, E, <- Ha. transitivity (fadd (fadd (fmul a (fmul u1 u1)) (fmul v1 v1)) (fmul (fadd PField.f1 PField.f1) (fmul (fmul s t) (fmul e (fmul u1 v1))))); [ring|]. rewrite <- K.
    transitivity (fadd (fmul (fmul d (fmul (fmul u1 u1) (fmul v1 v1))) (fadd (fmul (fmul s s) (fmul u2 u2)) (fmul PField.f1 (fmul v2 v2)))) (fmul (fadd PField.f1 PField.f1) (fmul (fmul s t) (fmul e (fmul u1 v1))))); [rewrite Ha; ring|]. replace (fmul PField.f1 (fmul v2 v2)) with (fmul (fmul t t) (fmul v2 v2)) by (rewrite Ht; reflexivity). unfold e. ring. }
  assert (G : forall t : F, fmul t t = PField.f1 -> fadd (fmul s u2) (fmul t v2) = f0).
  { intros t Ht. destruct (Feqb_spec (fadd (fmul s u2) (fmul t v2)) f0) as [Z|Z]; [exact Z|exfalso]. apply (Hd (fdiv (fadd (fmul s u1) (fmul t (fmul e v1))) (fmul (fmul u1 v1) (fadd (fmul s u2) (fmul t v2))))).
    transitivity (fdiv (fmul (fadd (fmul s u1) (fmul t (fmul e v1))) (fadd (fmul s u1) (fmul t (fmul e v1)))) (fmul (fmul (fmul u1 v1) (fadd (fmul s u2) (fmul t v2))) (fmul (fmul u1 v1) (fadd (fmul s u2) (fmul t v2))))); [field; repeat split; assumption|]. rewrite (S t Ht). field. repeat split; assumption. }
  pose proof (G PField.f1 ltac:(ring)) as G1. pose proof (G (fopp PField.f1) ltac:(ring)) as G2.
  assert (Z : fmul (fadd PField.f1 PField.f1) v2 = f0). { transitivity (fsub (fadd (fmul s u2) (fmul PField.f1 v2)) (fadd (fmul s u2) (fmul (fopp PField.f1) v2))); [ring|]. rewrite G1, G2. ring. }
  apply fmul_zero in Z as [Z|Z]; contradiction.
Qed.
Theorem ed_total : forall P Q, on_curve a d P -> on_curve a d Q -> ed_defined d P Q.
Proof.
  intros P Q H1 HQ. pose proof (no_unit P Q H1 HQ) as N. split; intros Z; apply N.
  - transitivity (fadd PField.f1 (fmul (fadd PField.f1 (ed_den d P Q)) (fsub (ed_den d P Q) PField.f1))); [ring|]. rewrite Z. ring.
  - transitivity (fsub PField.f1 (fmul (fsub PField.f1 (ed_den d P Q)) (fadd (ed_den d P Q) PField.f1))); [ring|]. rewrite Z. ring.
Qed.
Theorem ed_closed' : forall P Q, on_curve a d P -> on_curve a d Q -> on_curve a d (ed_sum a d P Q).
Proof. intros P Q H1 HQ. apply ed_closed; [exact H1|exact HQ|apply ed_total; assumption]. Qed.
Definition ed_zero : F * F := (f0, PField.f1).
Definition ed_opp (P : F * F) : F * F := (fopp (fst P), snd P).
Lemma zero_on : on_curve a d ed_zero.
Proof. unfold on_curve, ed_zero. cbn [fst snd]. ring. Qed.
Lemma opp_on : forall P, on_curve a d P -> on_curve a d (ed_opp P).
Proof. intros [u v] H. unfold on_curve, ed_opp in *. cbn [fst snd] in *. transitivity (fadd (fmul a (fmul u u)) (fmul v v)); [ring|]. rewrite H. ring. Qed.
Lemma ed_comm : forall P Q, ed_sum a d P Q = ed_sum a d Q P.
Proof.
  intros [u1 v1] [u2 v2]. unfold ed_sum, ed_den. cbn [fst snd]. f_equal; f_equal; ring.
Qed.
Lemma ed_zero_l : forall P, ed_sum a d ed_zero P = P.
Proof.
  intros [u v]. unfold ed_sum, ed_den, ed_zero. cbn [fst snd]. assert (N : PField.f1 <> f0) by exact F_1_neq_0. f_equal.
  - replace (fadd PField.f1 (fmul (fmul (fmul (fmul d f0) u) PField.f1) v)) with PField.f1 by ring. field. all: try exact N.
  - replace (fsub PField.f1 (fmul (fmul (fmul (fmul d f0) u) PField.f1) v)) with PField.f1 by ring. field. all: try exact N.
Qed.
Lemma ed_opp_l : forall P, on_curve a d P -> ed_sum a d (ed_opp P) P = ed_zero.
Proof.
  intros P H. pose proof (ed_total (ed_opp P) P (opp_on P H) H) as [D1 D2]. destruct P as [u v]. unfold on_curve, ed_sum, ed_den, ed_opp, ed_zero in *. cbn [fst snd] in *. f_equal.
  - field. exact D1.
  - assert (E : fsub (fmul v v) (fmul (fmul a (fopp u)) u) = fsub PField.f1 (fmul (fmul (fmul (fmul d (fopp u)) u) v) v)). { transitivity (fadd (fmul a (fmul u u)) (fmul v v)); [ring|]. rewrite H. ring. }
    rewrite E. field. exact D2.
Qed.
(** Associativity. On the curve u^2 and v^2 are rational functions of h = 1 - d u^2, which does not vanish: in these terms both sides have the same normal form. *)
Lemma h_nonzero : forall u, fsub PField.f1 (fmul d (fmul u u)) <> f0.
Proof.
  intros u E. assert (K : fmul d (fmul u u) = PField.f1). { transitivity (fsub PField.f1 (fsub PField.f1 (fmul d (fmul u u)))); [ring|]. rewrite E. ring. }
  assert (N : u <> f0). { intros Z. rewrite Z in K. apply F_1_neq_0. rewrite <- K. ring. }
  apply (Hd (fdiv PField.f1 u)). transitivity (fdiv PField.f1 (fmul u u)); [field; exact N|]. rewrite <- K. field. exact N.
Qed.
Lemma coords : forall u v, on_curve a d (u, v) -> exists h g D, fmul d D = PField.f1 /\ fmul g h = PField.f1 /\ fmul u u = fmul D (fsub PField.f1 h) /\ fmul v v = fmul g (fsub PField.f1 (fmul a (fmul D (fsub PField.f1 h)))).
Proof.
  intros u v H. pose proof (h_nonzero u) as N. pose proof d_nonzero as Nd. exists (fsub PField.f1 (fmul d (fmul u u))), (fdiv PField.f1 (fsub PField.f1 (fmul d (fmul u u)))), (fdiv PField.f1 d).
  split; [field; exact Nd|]. split; [field; exact N|]. split; [field; exact Nd|]. unfold on_curve in H. cbn [fst snd] in H.
  transitivity (fdiv (fsub PField.f1 (fmul a (fmul u u))) (fsub PField.f1 (fmul d (fmul u u)))); [|field; split; assumption].
  assert (K : fmul (fmul v v) (fsub PField.f1 (fmul d (fmul u u))) = fsub PField.f1 (fmul a (fmul u u))). { transitivity (fsub (fadd (fmul a (fmul u u)) (fmul v v)) (fadd (fmul a (fmul u u)) (fmul d (fmul (fmul u u) (fmul v v))))); [ring|]. rewrite H. ring. }
  rewrite <- K. field. exact N.
Qed.
Section Assoc.
Variables u1 v1 u2 v2 u3 v3 h1 g1 h2 g2 h3 g3 D : F.
Hypothesis HD : fmul d D = PField.f1.
Hypothesis G1 : fmul g1 h1 = PField.f1.
Hypothesis G2 : fmul g2 h2 = PField.f1.
Hypothesis G3 : fmul g3 h3 = PField.f1.
Hypothesis U1 : fmul u1 u1 = fmul D (fsub PField.f1 h1).
Hypothesis U2 : fmul u2 u2 = fmul D (fsub PField.f1 h2).
Hypothesis U3 : fmul u3 u3 = fmul D (fsub PField.f1 h3).
Hypothesis V1 : fmul v1 v1 = fmul g1 (fsub PField.f1 (fmul a (fmul D (fsub PField.f1 h1)))).
Hypothesis V2 : fmul v2 v2 = fmul g2 (fsub PField.f1 (fmul a (fmul D (fsub PField.f1 h2)))).
Hypothesis V3 : fmul v3 v3 = fmul g3 (fsub PField.f1 (fmul a (fmul D (fsub PField.f1 h3)))).
Notation "x * y" := (fmul x y). Notation "x + y" := (fadd x y). Notation "x - y" := (fsub x y). Notation one := PField.f1.
Let e12 := d * u1 * u2 * v1 * v2.
Let e23 := d * u2 * u3 * v2 * v3.
Let X12 := u1 * v2 + v1 * u2.
Let Y12 := v1 * v2 - a * u1 * u2.
Let X23 := u2 * v3 + v2 * u3.
Let Y23 := v2 * v3 - a * u2 * u3.
Lemma assoc_u : (X12 * (one - e12) * v3 + Y12 * (one + e12) * u3) * ((one + e23) * (one - e23) + d * u1 * X23 * v1 * Y23) =
  (u1 * Y23 * (one + e23) + v1 * X23 * (one - e23)) * ((one + e12) * (one - e12) + d * X12 * u3 * Y12 * v3).
Proof. unfold X12, Y12, X23, Y23, e12, e23. ring [HD G1 G2 G3 U1 U2 U3 V1 V2 V3]. Qed.
Lemma assoc_v : (Y12 * (one + e12) * v3 - a * (X12 * (one - e12)) * u3) * ((one + e23) * (one - e23) - d * u1 * X23 * v1 * Y23) =
  (v1 * Y23 * (one + e23) - a * u1 * (X23 * (one - e23))) * ((one + e12) * (one - e12) - d * X12 * u3 * Y12 * v3).
Proof. unfold X12, Y12, X23, Y23, e12, e23. ring [HD G1 G2 G3 U1 U2 U3 V1 V2 V3]. Qed.
End Assoc.
Lemma cross : forall x y p q : F, p <> f0 -> q <> f0 -> fmul x q = fmul y p -> fdiv x p = fdiv y q.
Proof.
  intros x y p q Hp Hq H. transitivity (fdiv (fmul x q) (fmul p q)); [field; split; assumption|]. rewrite H. field. split; assumption.
Qed.
(** the sum of a sum, with one division *)
Lemma sum_l : forall u1 v1 u2 v2 u3 v3 : F, let e := fmul (fmul (fmul (fmul d u1) u2) v1) v2 in let X := fadd (fmul u1 v2) (fmul v1 u2) in let Y := fsub (fmul v1 v2) (fmul (fmul a u1) u2) in
  let p := fadd PField.f1 e in let q := fsub PField.f1 e in
  ed_defined d (u1, v1) (u2, v2) -> ed_defined d (ed_sum a d (u1, v1) (u2, v2)) (u3, v3) ->
  fadd (fmul p q) (fmul (fmul (fmul (fmul d X) u3) Y) v3) <> f0 /\ fsub (fmul p q) (fmul (fmul (fmul (fmul d X) u3) Y) v3) <> f0 /\
  ed_sum a d (ed_sum a d (u1, v1) (u2, v2)) (u3, v3) =
  (fdiv (fadd (fmul (fmul X q) v3) (fmul (fmul Y p) u3)) (fadd (fmul p q) (fmul (fmul (fmul (fmul d X) u3) Y) v3)),
   fdiv (fsub (fmul (fmul Y p) v3) (fmul (fmul a (fmul X q)) u3)) (fsub (fmul p q) (fmul (fmul (fmul (fmul d X) u3) Y) v3))).
Proof.
  intros u1 v1 u2 v2 u3 v3 e X Y p q D1 D2.
  assert (E : ed_sum a d (u1, v1) (u2, v2) = (fdiv X p, fdiv Y q)) by reflexivity. rewrite E in *.
  destruct D1 as [N1 N2]. change (p <> f0) in N1. change (q <> f0) in N2. clearbody X Y. clear E.
  clearbody p q. destruct D2 as [M1 M2]. unfold ed_den in M1, M2. cbn [fst snd] in M1, M2.
  assert (K1 : fadd (fmul p q) (fmul (fmul (fmul (fmul d X) u3) Y) v3) = fmul (fmul p q) (fadd PField.f1 (fmul (fmul (fmul (fmul d (fdiv X p)) u3) (fdiv Y q)) v3))) by (field; split; assumption).
  assert (K2 : fsub (fmul p q) (fmul (fmul (fmul (fmul d X) u3) Y) v3) = fmul (fmul p q) (fsub PField.f1 (fmul (fmul (fmul (fmul d (fdiv X p)) u3) (fdiv Y q)) v3))) by (field; split; assumption).
  assert (L1 : fadd (fmul p q) (fmul (fmul (fmul (fmul d X) u3) Y) v3) <> f0) by (rewrite K1; intros Z; apply fmul_zero in Z as [Z|Z]; [apply fmul_zero in Z as [Z|Z]; contradiction|contradiction]).
  assert (L2 : fsub (fmul p q) (fmul (fmul (fmul (fmul d X) u3) Y) v3) <> f0) by (rewrite K2; intros Z; apply fmul_zero in Z as [Z|Z]; [apply fmul_zero in Z as [Z|Z]; contradiction|contradiction]).
  split; [exact L1|]. split; [exact L2|]. unfold ed_sum, ed_den. cbn [fst snd].
  assert (A1 : fadd (fmul (fdiv X p) v3) (fmul (fdiv Y q) u3) = fdiv (fadd (fmul (fmul X q) v3) (fmul (fmul Y p) u3)) (fmul p q)) by (field; split; assumption).
  assert (A2 : fsub (fmul (fdiv Y q) v3) (fmul (fmul a (fdiv X p)) u3) = fdiv (fsub (fmul (fmul Y p) v3) (fmul (fmul a (fmul X q)) u3)) (fmul p q)) by (field; split; assumption).
  rewrite A1, A2, K1, K2.
  set (m1 := fadd PField.f1 (fmul (fmul (fmul (fmul d (fdiv X p)) u3) (fdiv Y q)) v3)) in *. set (m2 := fsub PField.f1 (fmul (fmul (fmul (fmul d (fdiv X p)) u3) (fdiv Y q)) v3)) in *. clearbody m1 m2. clear K1 K2 L1 L2 A1 A2.
  f_equal; field; repeat split; assumption.
Qed.
Theorem ed_assoc : forall P Q R, on_curve a d P -> on_curve a d Q -> on_curve a d R -> ed_sum a d (ed_sum a d P Q) R = ed_sum a d P (ed_sum a d Q R).
Proof.
  intros [u1 v1] [u2 v2] [u3 v3] HP HQ HR.
  destruct (sum_l u1 v1 u2 v2 u3 v3 (ed_total _ _ HP HQ) (ed_total _ _ (ed_closed' _ _ HP HQ) HR)) as (A1 & A2 & E1).
  rewrite (ed_comm (u1, v1) (ed_sum a d (u2, v2) (u3, v3))), (ed_comm (u2, v2) (u3, v3)).
  destruct (sum_l u3 v3 u2 v2 u1 v1 (ed_total _ _ HR HQ) (ed_total _ _ (ed_closed' _ _ HR HQ) HP)) as (B1 & B2 & E2).
  rewrite E1, E2. clear E1 E2.
  pose proof d_nonzero as Nd. destruct (coords u1 v1 HP) as (h1 & g1 & D1 & C1 & G1 & U1 & V1). destruct (coords u2 v2 HQ) as (h2 & g2 & D2 & C2 & G2 & U2 & V2). destruct (coords u3 v3 HR) as (h3 & g3 & D3 & C3 & G3 & U3 & V3).
  assert (X2 : D2 = D1) by (transitivity (fmul (fmul d D1) D2); [rewrite C1; ring|transitivity (fmul (fmul d D2) D1); [ring|rewrite C2; ring]]).
  assert (X3 : D3 = D1) by (transitivity (fmul (fmul d D1) D3); [rewrite C1; ring|transitivity (fmul (fmul d D3) D1); [ring|rewrite C3; ring]]).
  subst D2 D3.
  pose proof (assoc_u u1 v1 u2 v2 u3 v3 h1 g1 h2 g2 h3 g3 D1 C1 G1 G2 G3 U1 U2 U3 V1 V2 V3) as AU.
  pose proof (assoc_v u1 v1 u2 v2 u3 v3 h1 g1 h2 g2 h3 g3 D1 C1 G1 G2 G3 U1 U2 U3 V1 V2 V3) as AV.
  cbv zeta in AU, AV. clear - A1 A2 B1 B2 AU AV Nd.
  f_equal; apply cross; [exact A1|exact B1| |exact A2|exact B2| ].
  - etransitivity; [|etransitivity; [exact AU|]]; ring.
  - etransitivity; [|etransitivity; [exact AV|]]; ring.
Qed.
(** n P *)
Definition ed_mul (n : nat) (P : F * F) : F * F := Nat.iter n (ed_sum a d P) ed_zero.
Lemma mul_on : forall n P, on_curve a d P -> on_curve a d (ed_mul n P).
Proof. intros n P H. induction n as [|n IH]; [exact zero_on|]. unfold ed_mul. cbn [Nat.iter nat_rect]. apply ed_closed'; [exact H|exact IH]. Qed.
Lemma mul_add : forall n m P, on_curve a d P -> ed_mul (n + m) P = ed_sum a d (ed_mul n P) (ed_mul m P).
Proof.
  intros n m P H. induction n as [|n IH].
  - rewrite ed_zero_l. reflexivity.
  - change (ed_mul (S n + m) P) with (ed_sum a d P (ed_mul (n + m) P)). change (ed_mul (S n) P) with (ed_sum a d P (ed_mul n P)). rewrite IH. symmetry. apply ed_assoc; [exact H|apply mul_on; exact H|apply mul_on; exact H].
Qed.
Lemma mul_1 : forall P, ed_mul 1 P = P.
Proof. intros P. change (ed_mul 1 P) with (ed_sum a d P ed_zero). rewrite ed_comm. apply ed_zero_l. Qed.
End Complete.
End Edwards.
