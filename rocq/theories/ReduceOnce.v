(** The reduced and propagated program defines each variable once, and none of its arguments again.
    Models: zokrates_analysis/src/reducer/mod.rs, shallow_ssa.rs (versions and frames increase), propagation.rs (definitions are only dropped, or put back once). *)
From Coq Require Import String Ascii.
From Coq Require Import ZArith NArith List Bool Lia.
From Verif Require Import PField Interp Bits Zir UintOpt Abi Typed Writes Src SrcTy TProp TPropOk TPropProg Reduce ReduceFuel Lower.
Import ListNotations.
Open Scope nat_scope.

Section Once.
Context {PF : PrimeField}.
Definition defd (b : list sstmt) : list rid := flat_map sdef b.
Definition dom (C : consts) (x : rid) : Prop := C x <> None.
(** [b] are the statements put out and [C'] the constants known after a step which may define the variables of [F]: a variable is a known constant or defined, not both *)
Definition step (F : rid -> Prop) (C : consts) (b : list sstmt) (C' : consts) : Prop :=
  NoDup (defd b) /\ (forall x, In x (defd b) -> dom C x \/ F x) /\ (forall x, dom C' x -> dom C x \/ F x) /\ (forall x, In x (defd b) -> dom C' x -> False).
Lemma defd_app : forall a b, defd (a ++ b) = defd a ++ defd b.
Proof. intros. apply flat_map_app. Qed.
Lemma nodup_join : forall (A : Type) (a b : list A), NoDup a -> NoDup b -> (forall x, In x a -> In x b -> False) -> NoDup (a ++ b).
Proof.
  intros A a b. induction a as [|x a IH]; intros Na Nb H; [exact Nb|]. inversion Na as [|? ? N1 N2]; subst. cbn [app]. constructor; [|apply IH; [exact N2|exact Nb|intros y Y1 Y2; exact (H y (or_intror Y1) Y2)]].
  intros I. apply in_app_or in I as [I|I]; [exact (N1 I)|exact (H x (or_introl eq_refl) I)].
Qed.
Lemma step_nil : forall F C, step F C [] C.
Proof. intros F C. split; [constructor|]. split; [intros x []|]. split; [intros x H; left; exact H|intros x []]. Qed.
Lemma step_weak : forall (F G : rid -> Prop) C b C', (forall x, F x -> G x) -> step F C b C' -> step G C b C'.
Proof. intros F G C b C' H [A [B [D E]]]. split; [exact A|]. split; [intros x I; destruct (B x I); auto|]. split; [intros x I; destruct (D x I); auto|exact E]. Qed.
Lemma step_seq : forall (F G : rid -> Prop) C b C1 b2 C2, (forall x, dom C x -> G x -> False) -> (forall x, F x -> G x -> False) -> step F C b C1 -> step G C1 b2 C2 -> step (fun x => F x \/ G x) C (b ++ b2) C2.
Proof.
  intros F G C b C1 b2 C2 H1 H2 [A [B [D E]]] [A' [B' [D' E']]]. unfold step. rewrite defd_app. split; [apply nodup_join; [exact A|exact A'|]|split; [|split]].
  - intros x I J. destruct (B' x J) as [K|K]; [exact (E x I K)|]. destruct (B x I) as [L|L]; [exact (H1 x L K)|exact (H2 x L K)].
  - intros x I. apply in_app_or in I as [I|I]; [destruct (B x I); auto|]. destruct (B' x I) as [K|K]; [destruct (D x K); auto|auto].
  - intros x I. destruct (D' x I) as [K|K]; [destruct (D x K); auto|auto].
  - intros x I J. apply in_app_or in I as [I|I]; [|exact (E' x I J)]. destruct (D' x J) as [K|K]; [exact (E x I K)|]. destruct (B x I) as [L|L]; [exact (H1 x L K)|exact (H2 x L K)].
Qed.
Lemma step_dom : forall F C b C' (P : rid -> Prop), step F C b C' -> (forall x, dom C x -> P x) -> (forall x, F x -> P x) -> forall x, dom C' x -> P x.
Proof. intros F C b C' P [_ [_ [D _]]] H1 H2 x H. destruct (D x H); auto. Qed.
(** ** Propagation *)
Lemma dom_kput : forall C x o y, dom (kput C x o) y -> (y = x /\ o <> None) \/ (y <> x /\ dom C y).
Proof. intros C x o y H. unfold dom, kput in H. destruct (rid_eqb y x) eqn:E; [apply rid_eqb_ok in E; left; auto|]. right. split; [intros ->; rewrite rid_eqb_refl in E; discriminate E|exact H]. Qed.
Lemma step_known : forall (F : rid -> Prop) C x v, dom C x \/ F x -> step F C [] (kput C x v).
Proof. intros F C x v H. split; [constructor|]. split; [intros y []|]. split; [|intros y []]. intros y D. apply dom_kput in D as [[-> _]|[_ D]]; auto. Qed.
(** a statement that is kept, with the definition of its variable put back if that was a known constant *)
Lemma inval_step : forall C x s C' l, (sdef s = [x] /\ ~ dom C x \/ sdef s = []) -> invalidate C x s = (C', l) -> step (fun y => In y (sdef s)) C l C'.
Proof.
  intros C x s C' l D H. unfold invalidate in H. destruct (C x) as [[t v]|] eqn:E.
  - injection H as <- <-. assert (Dx : dom C x) by (unfold dom; rewrite E; discriminate). destruct D as [[_ N]|D]; [contradiction (N Dx)|]. unfold step, defd. cbn [flat_map sdef]. rewrite D. cbn [app]. split; [constructor; [intros []|constructor]|]. split; [intros y [<-|[]]; auto|]. split.
    + intros y Y. apply dom_kput in Y as [[_ Y]|[_ Y]]; [contradiction Y; reflexivity|auto].
    + intros y [<-|[]] Y. apply dom_kput in Y as [[_ Y]|[Y _]]; contradiction Y; reflexivity.
  - injection H as <- <-. unfold step, defd. cbn [flat_map]. rewrite app_nil_r. destruct D as [[D N]|D]; rewrite D.
    + split; [constructor; [intros []|constructor]|]. split; [auto|]. split; [auto|]. intros y [<-|[]] Y. exact (N Y).
    + split; [constructor|]. split; [intros y []|]. split; [auto|intros y []].
Qed.
Lemma pstmt_step : forall C s C' l, (forall x, dom C x -> In x (sdef s) -> False) -> pstmt C s = Some (C', l) -> step (fun y => In y (sdef s)) C l C'.
Proof.
  intros C s C' l Dj H. destruct s as [x t e|x t p e|e err|fmt args|x t em args|x a b body]; cbn [pstmt] in H.
  - assert (N : ~ dom C x) by (intros D; exact (Dj x D (or_introl eq_refl))). destruct (pexp C e) as [e'|]; [|discriminate H]. destruct (isc e').
    + destruct (cval e') as [v|]; [|discriminate H]. destruct (C x) eqn:E; [discriminate H|]. injection H as <- <-. apply step_known. right. left. reflexivity.
    + injection H as H. apply (inval_step C x (SDef x t e') C' l); [left; split; [reflexivity|exact N]|exact H].
  - destruct (ppath C p) as [p'|]; [|discriminate H]. destruct (pexp C e) as [e'|]; [|discriminate H].
    assert (K : forall r, Some (invalidate C x (SSet x t p' e')) = Some r -> r = (C', l) -> step (fun y => In y (sdef (SSet x t p e))) C l C') by (intros r R ->; injection R as R; apply (inval_step C x (SSet x t p' e') C' l); [right; reflexivity|exact R]).
    destruct (isc e'); [|exact (K _ H eq_refl)]. destruct (cval e') as [v|]; [|discriminate H]. destruct (C x) as [[u c]|] eqn:E; [|exact (K _ H eq_refl)]. destruct (lsteps p') as [ps|]; [|exact (K _ H eq_refl)]. destruct (put ps v c) as [c'|]; [|exact (K _ H eq_refl)].
    injection H as <- <-. apply step_known. left. unfold dom. rewrite E. discriminate.
  - destruct (pexp C e) as [e'|]; [|discriminate H]. destruct (bnum e') as [[|]|]; [|discriminate H|]; injection H as <- <-; [apply step_nil|]. split; [constructor|]. split; [intros y []|]. split; [auto|intros y []].
  - destruct (pexps C args) as [l'|]; [|discriminate H]. injection H as <- <-. split; [constructor|]. split; [intros y []|]. split; [auto|intros y []].
  - assert (N : ~ dom C x) by (intros D; exact (Dj x D (or_introl eq_refl))). destruct (pexps C args) as [l'|]; [|discriminate H].
    assert (K : forall r, Some (invalidate C x (SEmb x t em l')) = Some r -> r = (C', l) -> step (fun y => In y (sdef (SEmb x t em args))) C l C') by (intros r R ->; injection R as R; apply (inval_step C x (SEmb x t em l') C' l); [left; split; [reflexivity|exact N]|exact R]).
    destruct (forallb isc l'); [|first [exact (K _ H eq_refl)|idtac]].
    + destruct (opt_list (map cval l')) as [vs|]; [|discriminate H]. destruct (pemb em vs) as [[v|]|]; [|exact (K _ H eq_refl)|discriminate H]. injection H as <- <-. apply step_known. right. left. reflexivity.
    all: idtac.
  - destruct (pexp C a); [|discriminate H]. destruct (pexp C b); [|discriminate H]. injection H as <- <-. split; [constructor|]. split; [intros y []|]. split; [auto|intros y []].
Qed.
Lemma pstmts_step : forall ss C C' l, NoDup (defd ss) -> (forall x, dom C x -> In x (defd ss) -> False) -> pstmts C ss = Some (C', l) -> step (fun y => In y (defd ss)) C l C'.
Proof.
  induction ss as [|s ss IH]; intros C C' l N Dj H; cbn [pstmts] in H; [injection H as <- <-; apply step_nil|]. destruct (pstmt C s) as [[C1 l1]|] eqn:E; [|discriminate H]. destruct (pstmts C1 ss) as [[C2 l2]|] eqn:E2; [|discriminate H]. injection H as <- <-.
  unfold defd in N, Dj. cbn [flat_map] in N, Dj. change (flat_map sdef ss) with (defd ss) in N, Dj.
  assert (Nd : forall x, In x (sdef s) -> In x (defd ss) -> False). { intros x I J. clear - N I J. induction (sdef s) as [|y r IHr]; [exact I|]. cbn [app] in N. inversion N as [|? ? N1 N2]; subst. destruct I as [->|I]; [apply N1, in_or_app; auto|exact (IHr N2 I)]. }
  assert (N2 : NoDup (defd ss)) by (clear - N; induction (sdef s) as [|y r IHr]; [exact N|inversion N; auto]).
  pose proof (pstmt_step C s C1 l1 (fun x D I => Dj x D (in_or_app _ _ _ (or_introl I))) E) as S1.
  assert (D1 : forall x, dom C1 x -> In x (defd ss) -> False). { apply (step_dom _ _ _ _ (fun x => In x (defd ss) -> False) S1); [intros x D I; exact (Dj x D (in_or_app _ _ _ (or_intror I)))|exact Nd]. }
  pose proof (step_seq _ _ _ _ _ _ _ (fun x D I => Dj x D (in_or_app _ _ _ (or_intror I))) Nd S1 (IH C1 C2 l2 N2 D1 E2)) as S. apply (step_weak _ _ _ _ _ (fun x (Hx : In x (sdef s) \/ In x (defd ss)) => in_or_app _ _ _ Hx) S).
Qed.
Theorem propagate_once : forall q q', once q -> propagate_typed q = Some q' -> once q'.
Proof.
  intros q q' O H. unfold propagate_typed in H. destruct (pstmts (fun _ => None) (sbody q)) as [[C l]|] eqn:E; [|discriminate H]. destruct (pexp C (sret q)) as [e|]; [|discriminate H]. injection H as <-. unfold once in *. cbn [sargs sbody]. change (flat_map sdef) with defd in *.
  set (A := map (fun q => fst (fst q)) (sargs q)) in *. assert (Na : NoDup A /\ NoDup (defd (sbody q)) /\ forall x, In x A -> In x (defd (sbody q)) -> False).
  { clear E. induction A as [|x A IH]; [split; [constructor|split; [exact O|intros x []]]|]. cbn [app] in O. inversion O as [|? ? O1 O2]; subst. destruct (IH O2) as [I1 [I2 I3]]. split; [constructor; [intros J; apply O1, in_or_app; auto|exact I1]|]. split; [exact I2|]. intros y [<-|Y] J; [apply O1, in_or_app; auto|exact (I3 y Y J)]. }
  destruct Na as [Na [Nb Nd]]. destruct (pstmts_step (sbody q) (fun _ => None) C l Nb (fun x D _ => D eq_refl) E) as [S1 [S2 _]]. apply nodup_join; [exact Na|exact S1|]. intros x I J. destruct (S2 x J) as [K|K]; [exact (K eq_refl)|exact (Nd x I K)].
Qed.

(** ** Reduction *)
Variable funs : ftable.
Definition below (L : nat) (C : consts) : Prop := forall x, dom C x -> rframe x <= L.
Definition frames (L L' : nat) (x : rid) : Prop := L < rframe x <= L'.
Definition fok (f : rfold) : Prop := forall L C e L' C' b e', below L C -> f L C e = Some (L', C', b, e') -> L <= L' /\ step (frames L L') C b C'.
Lemma below_step : forall L L' C b C', L <= L' -> below L C -> step (frames L L') C b C' -> below L' C'.
Proof. intros L L' C b C' Le B S. unfold below. apply (step_dom _ _ _ _ (fun x => rframe x <= L') S); [intros x D; specialize (B x D); lia|intros x [_ H]; exact H]. Qed.
Lemma frames_seq : forall L L1 L2 C b1 C1 b2 C2, L <= L1 -> L1 <= L2 -> below L C -> step (frames L L1) C b1 C1 -> step (frames L1 L2) C1 b2 C2 -> step (frames L L2) C (b1 ++ b2) C2.
Proof.
  intros L L1 L2 C b1 C1 b2 C2 H1 H2 B S1 S2. apply (step_weak (fun x => frames L L1 x \/ frames L1 L2 x)); [unfold frames; intros x; lia|]. apply (step_seq _ _ _ _ C1); [intros x D [K _]; specialize (B x D); lia|unfold frames; intros x; lia|exact S1|exact S2].
Qed.
Lemma rall_ok : forall f, fok f -> forall es L C L' C' b es', below L C -> rall f L C es = Some (L', C', b, es') -> L <= L' /\ step (frames L L') C b C'.
Proof.
  intros f H. induction es as [|e es IH]; intros L C L' C' b es' B R; cbn [rall] in R; [injection R as <- <- <- <-; split; [lia|apply step_nil]|]. destruct (f L C e) as [[[[L1 C1] b1] e1]|] eqn:E; [|discriminate R]. destruct (rall f L1 C1 es) as [[[[L2 C2] b2] r]|] eqn:E2; [|discriminate R]. injection R as <- <- <- <-.
  destruct (H _ _ _ _ _ _ _ B E) as [A1 S1]. destruct (IH _ _ _ _ _ _ (below_step _ _ _ _ _ A1 B S1) E2) as [A2 S2]. split; [lia|]. exact (frames_seq _ _ _ _ _ _ _ _ A1 A2 B S1 S2).
Qed.
Lemma rsand_ok : forall f, fok f -> fok (rsand f).
Proof.
  intros f H L C e L' C' b e' B R. unfold rsand in R. destruct (pexp C e) as [e1|]; [|discriminate R]. destruct (f L C e1) as [[[[L1 C1] b1] e2]|] eqn:E; [|discriminate R]. destruct (pexp C1 e2) as [e3|]; [|discriminate R]. injection R as <- <- <- <-. exact (H _ _ _ _ _ _ _ B E).
Qed.
Lemma rslice_ok : forall fr V f, fok f -> fok (rslice fr V f).
Proof. intros fr V f H L C e L' C' b e' B R. exact (rsand_ok f H _ _ _ _ _ _ _ B R). Qed.
Lemma rpath_ok : forall f, fok f -> forall p L C L' C' b p', below L C -> rpath f L C p = Some (L', C', b, p') -> L <= L' /\ step (frames L L') C b C'.
Proof.
  intros f H. induction p as [|a p IH]; intros L C L' C' b p' B R; cbn [rpath] in R; [injection R as <- <- <- <-; split; [lia|apply step_nil]|]. change ((fix go L C p {struct p} := _) : nat -> consts -> list sacc -> rres (list sacc)) with (rpath f) in R. destruct a as [i|m|k].
  - destruct (f L C i) as [[[[L1 C1] b1] e1]|] eqn:E; [|discriminate R]. destruct (rpath f L1 C1 p) as [[[[L2 C2] b2] r]|] eqn:E2; [|discriminate R]. injection R as <- <- <- <-.
    destruct (H _ _ _ _ _ _ _ B E) as [A1 S1]. destruct (IH _ _ _ _ _ _ (below_step _ _ _ _ _ A1 B S1) E2) as [A2 S2]. split; [lia|]. exact (frames_seq _ _ _ _ _ _ _ _ A1 A2 B S1 S2).
  - destruct (rpath f L C p) as [[[[L2 C2] b2] r]|] eqn:E2; [|discriminate R]. injection R as <- <- <- <-. exact (IH _ _ _ _ _ _ B E2).
  - destruct (rpath f L C p) as [[[[L2 C2] b2] r]|] eqn:E2; [|discriminate R]. injection R as <- <- <- <-. exact (IH _ _ _ _ _ _ B E2).
Qed.
Lemma rone_ok : forall f, fok f -> forall s L C L' C' b s', below L C -> rone f L C s = Some (L', C', b, s') -> L <= L' /\ step (frames L L') C b C' /\ sdef s' = sdef s.
Proof.
  intros f H s L C L' C' b s' B R. destruct s as [x t e|x t p e|e err|fmt args|x t em args|x a b0 body]; cbn [rone] in R; try discriminate R.
  - destruct (f L C e) as [[[[L1 C1] b1] e1]|] eqn:E; [|discriminate R]. injection R as <- <- <- <-. destruct (H _ _ _ _ _ _ _ B E) as [A1 S1]. auto.
  - destruct (f L C e) as [[[[L1 C1] b1] e1]|] eqn:E; [|discriminate R]. destruct (rpath f L1 C1 p) as [[[[L2 C2] b2] r]|] eqn:E2; [|discriminate R]. injection R as <- <- <- <-. destruct (H _ _ _ _ _ _ _ B E) as [A1 S1]. destruct (rpath_ok f H _ _ _ _ _ _ _ (below_step _ _ _ _ _ A1 B S1) E2) as [A2 S2].
    split; [lia|]. split; [exact (frames_seq _ _ _ _ _ _ _ _ A1 A2 B S1 S2)|reflexivity].
  - destruct (f L C e) as [[[[L1 C1] b1] e1]|] eqn:E; [|discriminate R]. injection R as <- <- <- <-. destruct (H _ _ _ _ _ _ _ B E) as [A1 S1]. auto.
  - destruct (rall f L C args) as [[[[L1 C1] b1] e1]|] eqn:E; [|discriminate R]. injection R as <- <- <- <-. destruct (rall_ok f H _ _ _ _ _ _ _ B E) as [A1 S1]. auto.
Qed.
Lemma rones_ok : forall f, fok f -> forall ss L C L' C' b ss', below L C -> rones f L C ss = Some (L', C', b, ss') -> L <= L' /\ step (frames L L') C b C' /\ defd ss' = defd ss.
Proof.
  intros f H. induction ss as [|s ss IH]; intros L C L' C' b ss' B R; cbn [rones] in R; [injection R as <- <- <- <-; split; [lia|split; [apply step_nil|reflexivity]]|]. destruct (rone f L C s) as [[[[L1 C1] b1] s1]|] eqn:E; [|discriminate R]. destruct (rones f L1 C1 ss) as [[[[L2 C2] b2] r]|] eqn:E2; [|discriminate R]. injection R as <- <- <- <-.
  destruct (rone_ok f H _ _ _ _ _ _ _ B E) as [A1 [S1 D1]]. destruct (IH _ _ _ _ _ _ (below_step _ _ _ _ _ A1 B S1) E2) as [A2 [S2 D2]]. split; [lia|]. split; [exact (frames_seq _ _ _ _ _ _ _ _ A1 A2 B S1 S2)|]. unfold defd in *. cbn [flat_map]. rewrite D1, D2. reflexivity.
Qed.
Lemma sdef_once : forall s, NoDup (sdef s).
Proof. intros s. destruct s; cbn [sdef]; repeat constructor; intros []. Qed.
Lemma rsimple_ok : forall f, fok f -> forall s L C L' C' l, below L C -> (forall x, In x (sdef s) -> rframe x <= L /\ ~ dom C x) -> rsimple f L C s = Some (L', C', l) -> L <= L' /\ step (fun x => frames L L' x \/ In x (sdef s)) C l C'.
Proof.
  intros f H s L C L' C' l B Dj R. unfold rsimple in R. destruct (pstmt C s) as [[C1 l1]|] eqn:E1; [|discriminate R]. destruct (rones f L C1 l1) as [[[[L2 C2] b] l2]|] eqn:E2; [|discriminate R]. destruct (pstmts C2 l2) as [[C3 l3]|] eqn:E3; [|discriminate R]. injection R as <- <- <-.
  pose proof (pstmt_step C s C1 l1 (fun x D I => proj2 (Dj x I) D) E1) as S1. assert (B1 : below L C1) by (unfold below; apply (step_dom _ _ _ _ (fun x => rframe x <= L) S1); [exact B|intros x I; exact (proj1 (Dj x I))]).
  destruct (rones_ok f H _ _ _ _ _ _ _ B1 E2) as [A2 [S2 Ed]]. split; [exact A2|]. destruct S1 as [N1 [M1 [K1 J1]]].
  assert (Fl : forall x, In x (defd l1) -> rframe x <= L) by (intros x I; destruct (M1 x I) as [D|D]; [exact (B x D)|exact (proj1 (Dj x D))]).
  assert (Dl : forall x, dom C2 x -> In x (defd l2) -> False). { rewrite Ed. apply (step_dom _ _ _ _ (fun x => In x (defd l1) -> False) S2); [intros x D I; exact (J1 x I D)|intros x [K _] I; specialize (Fl x I); lia]. }
  assert (N2 : NoDup (defd l2)) by (rewrite Ed; exact N1). pose proof (pstmts_step l2 C2 C3 l3 N2 Dl E3) as [N3 [M3 [K3 J3]]]. rewrite Ed in *. destruct S2 as [Nb [Mb [Kb Jb]]].
  assert (Ib : forall x, In x (defd b) -> In x (defd l1) -> False) by (intros x I J; destruct (Mb x I) as [D|[D _]]; [exact (J1 x J D)|specialize (Fl x J); lia]).
  assert (G1 : forall x, dom C1 x -> dom C x \/ frames L L2 x \/ In x (sdef s)) by (intros x D; destruct (K1 x D); auto). assert (G2 : forall x, dom C2 x -> dom C x \/ frames L L2 x \/ In x (sdef s)) by (intros x D; destruct (Kb x D); auto). assert (G3 : forall x, In x (defd l1) -> dom C x \/ frames L L2 x \/ In x (sdef s)) by (intros x D; destruct (M1 x D); auto).
  unfold step. rewrite defd_app. split; [apply nodup_join; [exact Nb|exact N3|]|split; [|split]].
  - intros x I J. destruct (M3 x J) as [D|D]; [exact (Jb x I D)|exact (Ib x I D)].
  - intros x I. apply in_app_or in I as [I|I]; [destruct (Mb x I); auto|destruct (M3 x I); auto].
  - intros x D. destruct (K3 x D); auto.
  - intros x I D. apply in_app_or in I as [I|I]; [|exact (J3 x I D)]. destruct (K3 x D) as [K|K]; [exact (Jb x I K)|exact (Ib x I K)].
Qed.
(** versions *)
Lemma core_eqb_refl : forall c, core_eqb c c = true.
Proof. intros c. apply core_eqb_ok. reflexivity. Qed.
Definition upto (V : versions) (x : rid) : Prop := match V (snd (fst x)) with Some k => snd x <= k | None => False end.
Definition vle (V V' : versions) : Prop := forall x, upto V x -> upto V' x.
Definition issued (fr : nat) (V V' : versions) (L L' : nat) (x : rid) : Prop := frames L L' x \/ (rframe x = fr /\ ~ upto V x /\ upto V' x).
Definition old (fr : nat) (V : versions) (L : nat) (C : consts) : Prop := forall x, dom C x -> rframe x <= L /\ (rframe x = fr -> upto V x).
Definition gok (fr : nat) (A : Type) (g : nat -> consts -> versions -> A -> rst) : Prop := forall L C V s L' C' V' b, fr <= L -> old fr V L C -> g L C V s = Some (L', C', V', b) -> L <= L' /\ vle V V' /\ step (issued fr V V' L L') C b C'.
Lemma old_step : forall fr V V' L L' C b C', fr <= L -> L <= L' -> vle V V' -> old fr V L C -> step (issued fr V V' L L') C b C' -> old fr V' L' C'.
Proof.
  intros fr V V' L L' C b C' Hf Le Lv O S. unfold old. apply (step_dom _ _ _ _ (fun x => rframe x <= L' /\ (rframe x = fr -> upto V' x)) S).
  - intros x D. destruct (O x D) as [A B]. split; [lia|]. intros E. exact (Lv x (B E)).
  - intros x [[A B]|[A [_ B]]]; split; try lia; auto.
Qed.
Lemma issued_seq : forall fr V V1 V2 L L1 L2 C b1 C1 b2 C2, fr <= L -> L <= L1 -> L1 <= L2 -> vle V V1 -> vle V1 V2 -> old fr V L C -> step (issued fr V V1 L L1) C b1 C1 -> step (issued fr V1 V2 L1 L2) C1 b2 C2 -> step (issued fr V V2 L L2) C (b1 ++ b2) C2.
Proof.
  intros fr V V1 V2 L L1 L2 C b1 C1 b2 C2 Hf H1 H2 Lv Lv2 O S1 S2. apply (step_weak (fun x => issued fr V V1 L L1 x \/ issued fr V1 V2 L1 L2 x)).
  - intros x [[[A B]|[A [B D]]]|[[A B]|[A [B D]]]]; [left; split; lia|right; split; [exact A|split; [exact B|exact (Lv2 x D)]]|left; split; lia|right; split; [exact A|split; [intros U; exact (B (Lv x U))|exact D]]].
  - apply (step_seq _ _ _ _ C1); [| |exact S1|exact S2].
    + intros x D [[A _]|[A [B _]]]; destruct (O x D) as [P Q]; [lia|exact (B (Lv x (Q A)))].
    + intros x [[A B]|[A [B D]]] [[A' B']|[A' [B' D']]]; try lia. exact (B' D).
Qed.
Lemma stmts_ok : forall fr f, gok fr sstmt f -> gok fr (list sstmt) (rstmts_ f).
Proof.
  intros fr f H L C V ss. revert L C V. induction ss as [|s ss IH]; intros L C V L' C' V' b Hf O R; cbn [rstmts_] in R; [injection R as <- <- <- <-; split; [lia|split; [intros x Hx; exact Hx|apply step_nil]]|].
  destruct (f L C V s) as [[[[L1 C1] V1] b1]|] eqn:E; [|discriminate R]. destruct (rstmts_ f L1 C1 V1 ss) as [[[[L2 C2] V2] b2]|] eqn:E2; [|discriminate R]. injection R as <- <- <- <-. destruct (H _ _ _ _ _ _ _ _ Hf O E) as [A1 [Lv1 S1]].
  destruct (IH _ _ _ _ _ _ _ (Nat.le_trans _ _ _ Hf A1) (old_step _ _ _ _ _ _ _ _ Hf A1 Lv1 O S1) E2) as [A2 [Lv2 S2]]. split; [lia|]. split; [intros x Hx; exact (Lv2 x (Lv1 x Hx))|]. exact (issued_seq _ _ _ _ _ _ _ _ _ _ _ _ Hf A1 A2 Lv1 Lv2 O S1 S2).
Qed.
Lemma iter_ok : forall fr f x body, gok fr sstmt f -> gok fr (list Z) (riter f x body).
Proof.
  intros fr f x body H L C V ks. revert L C V. induction ks as [|k ks IH]; intros L C V L' C' V' b Hf O R; cbn [riter] in R; [injection R as <- <- <- <-; split; [lia|split; [intros y Hy; exact Hy|apply step_nil]]|].
  destruct (rstmts_ f L C V (SDef x U32 (ul W32 k) :: body)) as [[[[L1 C1] V1] b1]|] eqn:E; [|discriminate R]. destruct (riter f x body L1 C1 V1 ks) as [[[[L2 C2] V2] b2]|] eqn:E2; [|discriminate R]. injection R as <- <- <- <-. destruct (stmts_ok fr f H _ _ _ _ _ _ _ _ Hf O E) as [A1 [Lv1 S1]].
  destruct (IH _ _ _ _ _ _ _ (Nat.le_trans _ _ _ Hf A1) (old_step _ _ _ _ _ _ _ _ Hf A1 Lv1 O S1) E2) as [A2 [Lv2 S2]]. split; [lia|]. split; [intros y Hy; exact (Lv2 y (Lv1 y Hy))|]. exact (issued_seq _ _ _ _ _ _ _ _ _ _ _ _ Hf A1 A2 Lv1 Lv2 O S1 S2).
Qed.
Lemma now_new : forall fr V x, let V' := bump V (snd (fst x)) in ~ upto V (now fr V' x) /\ upto V' (now fr V' x) /\ vle V V'.
Proof.
  intros fr V x V'. assert (E : V' (snd (fst x)) = Some (match V (snd (fst x)) with Some k => S k | None => O end)) by (unfold V', bump; rewrite core_eqb_refl; reflexivity).
  assert (N : ~ upto V (now fr V' x)). { unfold upto, now. cbn [fst snd]. unfold ver. rewrite E. destruct (V (snd (fst x))); [lia|intros []]. }
  split; [exact N|]. split; [unfold upto, now; cbn [fst snd]; unfold ver; rewrite E; lia|]. intros y. unfold upto, V', bump. destruct (core_eqb (snd (fst y)) (snd (fst x))) eqn:Q; [|auto]. apply core_eqb_ok in Q. rewrite Q. destruct (V (snd (fst x))); [lia|intros []].
Qed.
Definition table_once : Prop := forall f gs ts t gens ps body ret, funs f gs ts t = Some (Here gens ps body ret) -> NoDup (map fst ps).
Lemma bind_defs : forall fr ps args, defd (bindings fr ps args) = map (fun q => (fr, Name (fst (fst q)), O)) (combine ps args).
Proof. intros fr ps args. unfold defd, bindings. induction (combine ps args) as [|q r IH]; [reflexivity|]. cbn [map flat_map sdef app]. rewrite IH. reflexivity. Qed.
Lemma bind_once : forall fr ps args, NoDup (map fst ps) -> NoDup (defd (bindings fr ps args)) /\ forall x, In x (defd (bindings fr ps args)) -> rframe x = fr /\ upto (param_versions ps) x.
Proof.
  intros fr ps args N. rewrite bind_defs. assert (Hin : forall q, In q (combine ps args) -> In (fst (fst q)) (map fst ps)) by (intros [p a] I; apply in_map; exact (in_combine_l _ _ _ _ I)). split.
  - clear Hin. revert args. induction ps as [|p ps IH]; intros args; [constructor|]. destruct args as [|a args]; [constructor|]. inversion N as [|? ? N1 N2]; subst. cbn [combine map fst]. constructor; [|exact (IH N2 args)]. intros I. apply in_map_iff in I as [[p' a'] [E I]]. cbn [fst] in E. injection E as E. apply N1. rewrite <- E. apply in_map. exact (in_combine_l _ _ _ _ I).
  - intros x I. apply in_map_iff in I as [q [<- I]]. split; [reflexivity|]. unfold upto, param_versions. cbn [fst snd]. assert (E : existsb (Nat.eqb (fst (fst q))) (map fst ps) = true) by (apply existsb_exists; exists (fst (fst q)); split; [exact (Hin q I)|apply Nat.eqb_refl]). rewrite E. lia.
Qed.
Lemma clear_step : forall F C b C' L, step F C b C' -> step F C b (clear L C').
Proof.
  intros F C b C' L [A [B [D E]]]. assert (Q : forall x, dom (clear L C') x -> dom C' x) by (intros x H; unfold dom, clear in H; destruct (rframe x =? L); [contradiction H; reflexivity|exact H]). split; [exact A|]. split; [exact B|]. split; [intros x H; exact (D x (Q x H))|intros x I H; exact (E x I (Q x H))].
Qed.
Theorem reduction_once : table_once -> forall n, (forall fr V, fok (rexp funs n fr V)) /\ (forall fr, gok fr sstmt (rstmt funs n fr)).
Proof.
  intros TO. induction n as [|n [IHe IHs]]; [split; [intros fr V L C e L' C' b e' _ H; discriminate H|intros fr L C V s L' C' V' b _ _ H; discriminate H]|]. split.
  - intros fr V L C e L' C' b e' B H. destruct e as [t x|op args|k e cs|c x y|ts t f gens args]; [cbn [rexp] in H|cbn [rexp] in H|cbn [rexp] in H|cbn [rexp] in H|rewrite u_call in H].
    + injection H as <- <- <- <-. split; [lia|apply step_nil].
    + destruct (rall (rexp funs n fr V) L C args) as [[[[L1 C1] b1] l]|] eqn:E; [|discriminate H]. injection H as <- <- <- <-. exact (rall_ok _ (IHe fr V) _ _ _ _ _ _ _ B E).
    + set (f := if is_slice k then rslice fr V (rexp funs n fr V) else rexp funs n fr V) in *. assert (Hf : fok f) by (unfold f; destruct (is_slice k); [apply rslice_ok|]; apply IHe). cbv zeta in H. destruct (f L C e) as [[[[L1 C1] b1] e1]|] eqn:E; [|discriminate H]. destruct (rall f L1 C1 cs) as [[[[L2 C2] b2] l]|] eqn:E2; [|discriminate H]. destruct (negb (is_slice k) || forallb is_num l); [|discriminate H]. injection H as <- <- <- <-.
      destruct (Hf _ _ _ _ _ _ _ B E) as [A1 S1]. destruct (rall_ok f Hf _ _ _ _ _ _ _ (below_step _ _ _ _ _ A1 B S1) E2) as [A2 S2]. split; [lia|]. exact (frames_seq _ _ _ _ _ _ _ _ A1 A2 B S1 S2).
    + destruct (rall (rexp funs n fr V) L C [c; x; y]) as [[[[L1 C1] b1] l]|] eqn:E; [|discriminate H]. destruct (rall_ok _ (IHe fr V) _ _ _ _ _ _ _ B E) as [A1 S1]. destruct l as [|c' [|x' [|y' [|]]]]; try discriminate H. injection H as <- <- <- <-. auto.
    + destruct (rall (rsand (rexp funs n fr V)) L C gens) as [[[[L1 C1] b1] gens']|] eqn:E1; [|discriminate H]. destruct (opt_list (map unum gens')) as [ns|]; [|discriminate H]. destruct (rall (rsand (rexp funs n fr V)) L1 C1 args) as [[[[L2 C2] b2] args']|] eqn:E2; [|discriminate H].
      destruct (rall_ok _ (rsand_ok _ (IHe fr V)) _ _ _ _ _ _ _ B E1) as [A1 S1]. pose proof (below_step _ _ _ _ _ A1 B S1) as B1. destruct (rall_ok _ (rsand_ok _ (IHe fr V)) _ _ _ _ _ _ _ B1 E2) as [A2 S2]. pose proof (below_step _ _ _ _ _ A2 B1 S2) as B2. pose proof (frames_seq _ _ _ _ _ _ _ _ A1 A2 B S1 S2) as S12. cbv zeta in H.
      destruct (funs f ns ts t) as [[gs ps body ret|em u]|] eqn:Ef; [| |discriminate H].
      * destruct ((length ps =? length args') && (length gs =? length ns))%bool; [|discriminate H]. destruct (pstmts C2 (bindings (S L2) ps args')) as [[C3 b3]|] eqn:E3; [|discriminate H]. destruct (rstmts_ (rstmt funs n (S L2)) (S L2) C3 (param_versions ps) (gen_defs gs ns ++ body)) as [[[[L4 C4] V4] b4]|] eqn:E4; [|discriminate H].
        destruct (rslice (S L2) V4 (rexp funs n (S L2) V4) L4 C4 ret) as [[[[L5 C5] b5] r]|] eqn:E5; [|discriminate H]. injection H as <- <- <- <-. destruct (bind_once (S L2) ps args' (TO _ _ _ _ _ _ _ _ Ef)) as [Nb Ub].
        assert (Db : forall x, dom C2 x -> In x (defd (bindings (S L2) ps args')) -> False) by (intros x D I; specialize (B2 x D); destruct (Ub x I) as [Q _]; lia). pose proof (pstmts_step _ _ _ _ Nb Db E3) as S3.
        assert (O3 : old (S L2) (param_versions ps) (S L2) C3). { unfold old. apply (step_dom _ _ _ _ (fun x => rframe x <= S L2 /\ (rframe x = S L2 -> upto (param_versions ps) x)) S3); [intros x D; specialize (B2 x D); split; [lia|intros Q; lia]|intros x I; destruct (Ub x I) as [Q U]; split; [lia|intros _; exact U]]. }
        destruct (stmts_ok (S L2) _ (IHs (S L2)) _ _ _ _ _ _ _ _ (Nat.le_refl _) O3 E4) as [A4 [Lv4 S4]]. pose proof (old_step _ _ _ _ _ _ _ _ (Nat.le_refl _) A4 Lv4 O3 S4) as O4. assert (B4 : below L4 C4) by (intros x D; exact (proj1 (O4 x D))). destruct (rslice_ok (S L2) V4 _ (IHe (S L2) V4) _ _ _ _ _ _ _ B4 E5) as [A5 S5].
        split; [lia|]. apply clear_step. rewrite app_assoc.
        assert (S34 : step (frames L2 L4) C2 (b3 ++ b4) C4). { apply (step_weak (fun x => In x (defd (bindings (S L2) ps args')) \/ issued (S L2) (param_versions ps) V4 (S L2) L4 x)).
          - intros x [I|[[P Q]|[P _]]]; [destruct (Ub x I) as [P _]; unfold frames; lia|unfold frames; lia|unfold frames; lia].
          - apply (step_seq _ _ _ _ C3); [| |exact S3|exact S4].
            + intros x D [[P _]|[P _]]; specialize (B2 x D); lia.
            + intros x I [[P _]|[P [Q _]]]; destruct (Ub x I) as [P1 P2]; [lia|exact (Q P2)]. }
        assert (Le4 : L2 <= L4) by lia. pose proof (frames_seq _ _ _ _ _ _ _ _ Le4 A5 B2 S34 S5) as S345. rewrite <- app_assoc in S345. exact (frames_seq L L2 L5 _ _ _ _ _ (Nat.le_trans _ _ _ A1 A2) ltac:(lia) B S12 S345).
      * destruct (pstmts C2 [SEmb (S L2, CallId, O) u em args']) as [[C3 b3]|] eqn:E3; [|discriminate H]. injection H as <- <- <- <-. split; [lia|]. apply clear_step. rewrite app_assoc.
        assert (S3 : step (frames L2 (S L2)) C2 b3 C3). { apply (step_weak (fun x => In x (defd [SEmb (S L2, CallId, O) u em args']))); [intros x [<-|[]]; unfold frames, rframe; cbn [fst]; lia|]. apply pstmts_step; [constructor; [intros []|constructor]|intros x D [<-|[]]; specialize (B2 _ D); unfold rframe in B2; cbn [fst] in B2; lia|exact E3]. }
        exact (frames_seq L L2 (S L2) _ _ _ _ _ (Nat.le_trans _ _ _ A1 A2) (Nat.le_succ_diag_r _) B S12 S3).
  - intros fr L C V s L' C' V' b Hf O H. assert (B : below L C) by (intros x D; exact (proj1 (O x D))).
    assert (Sim : forall s, (match s with SFor _ _ _ _ => false | _ => true end) = true -> match ssa fr V s with Some (V', s') => match rsimple (rexp funs n fr V') L C s' with Some (L', C', l) => Some (L', C', V', l) | None => None end | None => None end = Some (L', C', V', b) -> L <= L' /\ vle V V' /\ step (issued fr V V' L L') C b C').
    { clear H s. intros s Nf H. destruct (ssa fr V s) as [[V1 s1]|] eqn:Es; [|discriminate H]. destruct (rsimple (rexp funs n fr V1) L C s1) as [[[L1 C1] l1]|] eqn:E; [|discriminate H]. injection H as <- <- <- <-.
      assert (Q : vle V V1 /\ forall x, In x (sdef s1) -> rframe x = fr /\ ~ upto V x /\ upto V1 x).
      { destruct s as [x t e|x t p e|e err|fmt args|x t em args|x a0 b0 body]; cbn [ssa] in Es; try discriminate Es.
        - destruct (is_src x); [|discriminate Es]. injection Es as <- <-. destruct (now_new fr V x) as [P1 [P2 P3]]. split; [exact P3|]. intros y [<-|[]]. split; [reflexivity|]. split; [exact P1|exact P2].
        - destruct (is_src x); [|discriminate Es]. injection Es as <- <-. split; [intros y Hy; exact Hy|intros y []].
        - injection Es as <- <-. split; [intros y Hy; exact Hy|intros y []].
        - injection Es as <- <-. split; [intros y Hy; exact Hy|intros y []]. }
      destruct Q as [Lv Q]. destruct (rsimple_ok _ (IHe fr V1) s1 L C L1 C1 l1 B) as [A1 S1]; [|exact E|].
      - intros x I. destruct (Q x I) as [P1 [P2 _]]. split; [lia|]. intros D. exact (P2 (proj2 (O x D) P1)).
      - split; [exact A1|]. split; [exact Lv|]. apply (step_weak _ _ _ _ _ (fun x (Hx : frames L L1 x \/ In x (sdef s1)) => match Hx with or_introl h => or_introl h | or_intror h => or_intror (Q x h) end) S1). }
    destruct s as [x t e|x t p e|e err|fmt args|x t em args|x a b0 body]; [exact (Sim (SDef x t e) eq_refl H)|exact (Sim (SSet x t p e) eq_refl H)|exact (Sim (SAssert e err) eq_refl H)|exact (Sim (SLog fmt args) eq_refl H)|exact (Sim (SEmb x t em args) eq_refl H)|]. rewrite u_for in H.
    destruct (rall (rslice fr V (rexp funs n fr V)) L C [a; b0]) as [[[[L1 C1] b1] l]|] eqn:E; [|discriminate H]. destruct (rall_ok _ (rslice_ok fr V _ (IHe fr V)) _ _ _ _ _ _ _ B E) as [A1 S1]. destruct l as [|a' [|b' [|]]]; try discriminate H. destruct (unum a') as [i|]; [|discriminate H]. destruct (unum b') as [j|]; [|discriminate H]. destruct (_ && _)%bool; [|discriminate H].
    destruct (riter (rstmt funs n fr) x body L1 C1 V (zrange i j)) as [[[[L2 C2] V2] b2]|] eqn:E2; [|discriminate H]. injection H as <- <- <- <-.
    assert (S1' : step (issued fr V V L L1) C b1 C1) by (apply (step_weak _ _ _ _ _ (fun x Hx => or_introl Hx) S1)). assert (Lr : vle V V) by (intros y Hy; exact Hy). destruct (iter_ok fr _ x body (IHs fr) _ _ _ _ _ _ _ _ (Nat.le_trans _ _ _ Hf A1) (old_step _ _ _ _ _ _ _ _ Hf A1 Lr O S1') E2) as [A2 [Lv2 S2]].
    split; [lia|]. split; [exact Lv2|]. exact (issued_seq _ _ _ _ _ _ _ _ _ _ _ _ Hf A1 A2 Lr Lv2 O S1' S2).
Qed.
Theorem reduce_once : table_once -> forall n p q, NoDup (map (fun a => fst (fst a)) (sargs p)) -> reduce funs n p = Some q -> once q.
Proof.
  intros TO n p q Na H. unfold reduce in H. destruct (forallb _ (sargs p)) eqn:Fs; [|discriminate H]. match type of H with context [rstmts_ _ _ _ ?v] => set (V0 := v) in H end. destruct (rstmts_ (rstmt funs n 0) 0 (fun _ => None) V0 (sbody p)) as [[[[L C] V] b]|] eqn:E; [|discriminate H].
  destruct (rslice 0 V (rexp funs n 0 V) L C (sret p)) as [[[[L2 C2] b2] e]|] eqn:E2; [|discriminate H]. injection H as <-. unfold once. cbn [sargs sbody]. change (flat_map sdef (b ++ b2)) with (defd (b ++ b2)).
  destruct (reduction_once TO n) as [He Hs]. assert (O : old 0 V0 0 (fun _ => None)) by (intros x D; contradiction D; reflexivity). destruct (stmts_ok 0 _ (Hs 0) _ _ _ _ _ _ _ _ (Nat.le_refl _) O E) as [A1 [Lv S1]]. pose proof (old_step _ _ _ _ _ _ _ _ (Nat.le_refl _) A1 Lv O S1) as O1.
  assert (B1 : below L C) by (intros x D; exact (proj1 (O1 x D))). destruct (rslice_ok 0 V _ (He 0 V) _ _ _ _ _ _ _ B1 E2) as [A2 S2].
  assert (S : step (issued 0 V0 V 0 L2) (fun _ => None) (b ++ b2) C2). { apply (issued_seq 0 V0 V V 0 L L2 _ _ C _ _ (Nat.le_refl _) A1 A2 Lv (fun x Hx => Hx) O S1). apply (step_weak _ _ _ _ _ (fun x Hx => or_introl Hx) S2). }
  destruct S as [N [M _]]. apply nodup_join; [exact Na|exact N|]. intros x I J. destruct (M x J) as [D|[[P _]|[_ [P _]]]]; [exact (D eq_refl)| |].
  - apply in_map_iff in I as [a [<- I]]. rewrite forallb_forall in Fs. specialize (Fs a I). unfold is_src in Fs. apply andb_prop in Fs as [Fs _]. apply andb_prop in Fs as [Fs _]. apply Nat.eqb_eq in Fs. lia.
  - apply P. apply in_map_iff in I as [a [<- I]]. rewrite forallb_forall in Fs. specialize (Fs a I). unfold is_src in Fs. apply andb_prop in Fs as [Fs _]. apply andb_prop in Fs as [_ Fs]. apply Nat.eqb_eq in Fs. unfold upto. rewrite Fs.
    assert (Ev : V0 (snd (fst (fst (fst a)))) = Some 0) by (unfold V0; match goal with |- (if ?c then _ else _) = _ => assert (Q : c = true) by (apply existsb_exists; exists a; split; [exact I|apply core_eqb_refl]); rewrite Q; reflexivity end). rewrite Ev. lia.
Qed.
End Once.
