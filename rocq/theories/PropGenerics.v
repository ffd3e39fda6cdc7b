(** C60: the generic arguments of a call are inferred exactly. *)
From Coq Require Import String.
From Coq Require Import ZArith List Bool Lia.
From Verif Require Import SMap Generics.
Import ListNotations.
Open Scope Z_scope.

(** ** Generic facts *)
Section Gen.
Context {V : Type} (eqb : V -> V -> bool) (ofZ : Z -> V) (ofC : string -> V).
Hypothesis eqb_eq : forall a b, eqb a b = true <-> a = b.
Context (defs : string -> nat * list (string * gty dconst)).
Notation inst := (@inst V ofZ ofC).
Notation fits := (@fits V ofZ ofC).
Notation value := (@value V ofZ ofC).

Lemma ext_nil : forall g : Z -> V, ext g [] .
Proof. intros g i v H; discriminate. Qed.

Lemma args_inst : forall g gs vs, Forall2 (arg_fits ofZ ofC g) gs vs -> (forall v, In v vs -> v <> None) ->
  vs = map (option_map (value g)) gs.
Proof.
  induction 1 as [|c v gs vs Hc H IH]; intros Hv; [reflexivity|].
  simpl. f_equal; [|apply IH; intros; apply Hv; right; auto].
  destruct v as [v|]; [|exfalso; apply (Hv None); [left; auto|auto]].
  destruct Hc as (c' & -> & <-). reflexivity.
Qed.

(** a value's type that fits a declared type is the declared type with its generics replaced *)
Lemma fits_inst : forall d g t, declared defs d -> instance ofZ ofC defs false t -> fits g d t -> t = inst g d.
Proof.
  induction d as [| |w|d n IH|ds IH|l gs ms _] using gty_ind'; intros g [| |w'|t k|ts|l' vs ms'] Hd Ht Hf;
    simpl in Hd, Ht, Hf; try tauto; simpl.
  - congruence.
  - destruct Hf as [Hf Hn]. f_equal; auto.
  - f_equal. revert ts Ht Hf. induction ds as [|d ds IHd]; intros [|t ts] Ht Hf; simpl in *; try tauto.
    destruct Hd, Ht, Hf. inversion IH; subst. f_equal; auto.
  - destruct Hf as [-> Hf]. destruct Hd as [Hl ->]. destruct Ht as [Hl' Ht].
    destruct (Ht eq_refl) as [Hv Hm]. apply args_inst in Hf; auto. subst vs.
    f_equal. exact Hm.
Qed.

Lemma all_some_map : forall {A B} (f : A -> option B) (h : A -> B) l r,
  (forall a b, In a l -> f a = Some b -> b = h a) -> all_some (map f l) = Some r -> r = map h l.
Proof.
  induction l as [|a l IH]; simpl; intros r H E; [congruence|].
  destruct (f a) as [b|] eqn:Ea; [|discriminate].
  destruct (all_some (map f l)) as [r'|] eqn:Er; [|discriminate].
  injection E as <-. f_equal; [apply (H a); auto|apply IH; auto].
Qed.

Lemma sget_number : forall {A} (l : list A) j i, sget i (number j l) =
  (if (i <? j) then None else nth_error l (Z.to_nat (i - j))).
Proof.
  induction l as [|a l IH]; intros j i; simpl.
  - destruct (i <? j); [reflexivity|]. destruct (Z.to_nat (i - j)); reflexivity.
  - destruct (Z.eqb_spec i j) as [->|E].
    + rewrite Z.ltb_irrefl, Z.sub_diag. reflexivity.
    + rewrite IH. destruct (Z.ltb_spec i j) as [L|L].
      * replace (i <? j + 1) with true by (symmetry; apply Z.ltb_lt; lia). reflexivity.
      * replace (i <? j + 1) with false by (symmetry; apply Z.ltb_ge; lia).
        replace (Z.to_nat (i - j)) with (S (Z.to_nat (i - (j + 1)))) by lia. reflexivity.
Qed.

Lemma map_const_ext : forall c g (m : @smap V) v, ext g m -> map_const ofZ ofC m c = Some v -> v = value g c.
Proof.
  intros [i|n|x] g m v Hg H; simpl in *; [|congruence|congruence]. symmetry; apply Hg, H.
Qed.

(** what specialize_declaration_type returns is the declared type with its generics replaced *)
Lemma specialize_type_inst : forall d g (m : @smap V) t, ext g m -> specialize_type ofZ ofC d m = Some t -> t = inst g d.
Proof.
  induction d as [| |w|d n IH|ds IH|l gs ms IH] using gty_ind'; intros g m t Hg H; cbn -[all_some number nth] in H |- *; try congruence.
  - destruct (specialize_type ofZ ofC d m) as [t'|] eqn:E; [|discriminate].
    destruct (map_const ofZ ofC m n) as [k|] eqn:Ek; [|discriminate].
    injection H as <-. f_equal; [eapply IH; eauto|eapply map_const_ext; eauto].
  - destruct (all_some _) as [r|] eqn:E; [|discriminate]. injection H as <-. f_equal.
    eapply all_some_map; [|exact E]. intros d b Hin Eb. rewrite Forall_forall in IH. eapply IH; eauto.
  - destruct (all_some (map _ gs)) as [vs|] eqn:E; [|discriminate].
    assert (Ev : map Some vs = map (option_map (value g)) gs).
    { clear - E Hg. revert vs E. induction gs as [|c gs IHg]; simpl; intros vs E; [injection E as <-; reflexivity|].
      destruct c as [c|]; [|discriminate].
      destruct (map_const ofZ ofC m c) as [v|] eqn:Ec; [|discriminate].
      destruct (all_some _) as [r|]; [|discriminate]. injection E as <-. simpl. f_equal; [|auto].
      f_equal. eapply map_const_ext; eauto. }
    rewrite <- Ev. destruct (all_some (map _ ms)) as [r|] eqn:Er; [|discriminate]. injection H as <-. f_equal.
    eapply all_some_map; [|exact Er]. intros [s d] b Hin Eb. cbn -[number nth] in Eb |- *.
    destruct (specialize_type ofZ ofC d (number 0 vs)) as [t'|] eqn:Et; [|discriminate]. injection Eb as <-.
    f_equal. rewrite Forall_forall in IH. eapply (IH _ Hin); [|exact Et].
    intros i v Hi. rewrite sget_number in Hi. destruct (i <? 0); [discriminate|]. rewrite Z.sub_0_r in Hi.
    assert (X : nth_error (map Some vs) (Z.to_nat i) = Some (Some v)) by (rewrite nth_error_map, Hi; reflexivity).
    rewrite (nth_error_nth _ _ None X). reflexivity.
Qed.

(** every generic argument is given, and sizes use declared generic parameters only, in the type and in
    the members of its structs *)
Fixpoint scoped (is : Z -> Prop) (d : gty dconst) : Prop :=
  match d with
  | GArr t n => scoped is t /\ (forall i, n = DGen i -> is i)
  | GTup ts => (fix go l : Prop := match l with [] => True | t :: r => scoped is t /\ go r end) ts
  | GStruct _ gs ms =>
    (forall c, In c gs -> exists c', c = Some c' /\ forall i, c' = DGen i -> is i) /\
    (fix go l : Prop := match l with [] => True | m :: r => scoped (fun i => 0 <= i < Z.of_nat (length gs)) (snd m) /\ go r end) ms
  | _ => True
  end.

Lemma all_some_ok : forall {A B} (f : A -> option B) (h : A -> B) l,
  (forall a, In a l -> f a = Some (h a)) -> all_some (map f l) = Some (map h l).
Proof.
  induction l as [|a l IH]; simpl; intros H; [reflexivity|].
  rewrite (H a) by auto. rewrite IH by auto. reflexivity.
Qed.

Lemma map_const_scoped : forall (is : Z -> Prop) g (m : @smap V) c, (forall i, is i -> sget i m = Some (g i)) ->
  (forall i, c = DGen i -> is i) -> map_const ofZ ofC m c = Some (value g c).
Proof. intros is g m [i|n|x] Hm Hc; simpl; auto. Qed.

Lemma specialize_type_total : forall d (is : Z -> Prop) g (m : @smap V),
  (forall i, is i -> sget i m = Some (g i)) -> scoped is d ->
  exists t, specialize_type ofZ ofC d m = Some t.
Proof.
  induction d as [| |w|d n IH|ds IH|l gs ms IH] using gty_ind'; intros is g m Hm Hs; cbn -[all_some number] in *; eauto.
  - destruct Hs as [Hs Hn]. destruct (IH is g m Hm Hs) as [t ->].
    rewrite (map_const_scoped is g) by auto. eauto.
  - assert (X : exists r, all_some (map (fun t => specialize_type ofZ ofC t m) ds) = Some r).
    { induction ds as [|d ds IHd]; simpl in *; [eauto|]. destruct Hs as [H1 H2]. inversion IH; subst.
      destruct (H3 is g m Hm H1) as [t ->]. destruct (IHd H4 H2) as [r ->]. eauto. }
    destruct X as [r ->]. eauto.
  - destruct Hs as [Hg Hms].
    assert (X : exists vs, all_some (map (fun c => match c with Some c => map_const ofZ ofC m c | None => None end) gs) = Some vs
                           /\ length vs = length gs).
    { clear Hms. induction gs as [|c gs IHg]; simpl in *; [exists []; auto|].
      destruct (Hg c) as (c' & -> & Hc); [auto|]. rewrite (map_const_scoped is g) by auto.
      destruct IHg as (vs & -> & El); [intros; apply Hg; auto|]. eexists; split; [reflexivity|simpl; congruence]. }
    destruct X as (vs & -> & El). rewrite <- El in Hms.
    assert (Y : exists r, all_some (map (fun m => match specialize_type ofZ ofC (snd m) (number 0 vs) with Some t => Some (fst m, t) | None => None end) ms) = Some r).
    { induction ms as [|d ds IHd]; simpl in *; [eauto|]. destruct Hms as [H1 H2]. inversion IH; subst.
      destruct (H3 (fun i => 0 <= i < Z.of_nat (length vs))
                   (fun i => match nth_error vs (Z.to_nat i) with Some v => v | None => ofZ 0 end) (number 0 vs)) as [t ->]; auto.
      { intros i Hi. rewrite sget_number. replace (i <? 0) with false by (symmetry; apply Z.ltb_ge; lia).
        rewrite Z.sub_0_r. destruct (nth_error vs (Z.to_nat i)) eqn:En; [reflexivity|].
        apply nth_error_None in En. lia. }
      destruct (IHd H4 H2) as [r ->]. eauto. }
    destruct Y as [r ->]. eauto.
Qed.
End Gen.

(** ** Calls, in the reducer: sizes are u32 *)
Section Call.
(** the declared structs: number of generic parameters and members, by location *)
Context (defs : string -> nat * list (string * gty dconst)).
(** the value of constants; irrelevant: constants have been replaced by their values *)
Context (ofC : string -> Z).
Notation ty := (gty Z).
Notation declared := (declared defs).
Notation instance := (instance (fun z => z) ofC defs).
Notation fits := (@fits Z (fun z => z) ofC).
Notation inst := (@inst Z (fun z => z) ofC).
Notation specialize := (@specialize Z Z.eqb (fun z => z)).

Definition u32 (n : Z) : Prop := 0 <= n < 2 ^ 32.

(** A signature as the type checker lets it through: distinct generic parameters, every generic parameter
    used is declared, constants are resolved, structs are as declared. *)
Definition sig_ok (s : gsig dconst Z) : Prop :=
  NoDup (sig_gens s) /\
  (forall d i, In d (sig_ins s ++ [sig_out s]) -> In i (gens_of d) -> In i (sig_gens s)) /\
  Forall (fun d => resolved d = true /\ declared d) (sig_ins s ++ [sig_out s]).

(** A call: explicit generic arguments (`_` or omitted: None), and the types of the arguments and of the
    expected result; their structs may leave generic arguments open. *)
Definition call_ok (s : gsig dconst Z) (values : list (option Z)) (ins : list ty) (out : ty) : Prop :=
  length values = length (sig_gens s) /\ length ins = length (sig_ins s) /\
  Forall (instance true) (ins ++ [out]).

(** [g] gives the generic parameters values that agree with the explicit ones and make the declared
    signature the one of the call *)
Definition solves (s : gsig dconst Z) (values : list (option Z)) (ins : list ty) (out : ty) (g : Z -> Z) : Prop :=
  Forall2 (fun i v => match v with Some v => g i = v | None => True end) (sig_gens s) values /\
  Forall2 (fits g) (sig_ins s) ins /\ fits g (sig_out s) out.

Lemma Forall2_snoc_inv : forall {A B} (R : A -> B -> Prop) l a l' b,
  length l = length l' -> (Forall2 R (l ++ [a]) (l' ++ [b]) <-> Forall2 R l l' /\ R a b).
Proof.
  induction l as [|x l IH]; intros a [|y l'] b E; simpl in E; try discriminate; simpl.
  - split; [intros H; inversion H; subst; auto|intros [_ H]; auto].
  - split.
    + intros H; inversion H as [|? ? ? ? H1 H2]; subst. apply IH in H2; [|lia]. split; [constructor|]; tauto.
    + intros [H1 H2]; inversion H1; subst. constructor; auto. apply IH; auto.
Qed.

Lemma specialize_spec : forall s values ins out, sig_ok s -> call_ok s values ins out ->
  match specialize s values ins out with
  | Some m => (forall i, In i (sig_gens s) <-> sget i m <> None) /\
              (forall g, solves s values ins out g <-> ext g m)
  | None => (forall g, ~ solves s values ins out g) \/
            (exists i m, In i (sig_gens s) /\ sget i m = None /\
                         forall g, solves s values ins out g <-> ext g m)
  end.
Proof.
  intros s values ins out (Hn & Hg & Hf) (Hv & Hi & Hins). unfold specialize, Generics.specialize.
  rewrite Hv, Hi, !Nat.eqb_refl. simpl andb. cbv iota.
  destruct (given_ok (fun z => z) (sig_gens s) values [] (eq_sym Hv) Hn (fun _ _ => eq_refl)) as (A0 & B0 & D0).
  assert (Hr : forallb resolved (sig_ins s ++ [sig_out s]) = true).
  { apply forallb_forall. intros d Hd. rewrite Forall_forall in Hf. apply Hf, Hd. }
  assert (Hd : Forall declared (sig_ins s ++ [sig_out s])) by (eapply Forall_impl; [|exact Hf]; intros ? [_ ?]; assumption).
  pose proof (check_types_ok Z.eqb (fun z => z) ofC defs Z.eqb_eq (sig_ins s ++ [sig_out s]) (ins ++ [out])
                (given (sig_gens s) values [])) as X.
  rewrite !app_length in X. simpl in X. specialize (X ltac:(lia) Hr Hd Hins).
  assert (Hsolves : forall g, solves s values ins out g <->
            ext g (given (sig_gens s) values []) /\ Forall2 (fits g) (sig_ins s ++ [sig_out s]) (ins ++ [out])).
  { intros g. rewrite A0. unfold solves, agrees. rewrite Forall2_snoc_inv by lia.
    split; [intros (H1&H2&H3)|intros ((H0&H1)&H2&H3)]; split; auto; split; auto; apply ext_nil. }
  unfold step_ok in X.
  destruct (check_types Z.eqb (fun z => z) (sig_ins s ++ [sig_out s]) (ins ++ [out]) (given (sig_gens s) values [])) as [[|] m] eqn:E.
  - destruct X as (A & B & D).
    assert (Hs : ssorted m) by (apply B, B0; constructor).
    assert (Hdom : forall i, sget i m <> None -> In i (sig_gens s)).
    { intros i H. apply D in H as [H|H]; [apply D0 in H as [H|H]; [simpl in H; congruence|exact H]|].
      apply in_flat_map in H as (d & Hd1 & Hd2). eapply Hg; eauto. }
    assert (Hall : forall g, solves s values ins out g <-> ext g m) by (intros g; rewrite Hsolves, A; reflexivity).
    assert (Hincl : incl (map fst m) (sig_gens s)).
    { intros i H. apply Hdom. exact (proj2 (sget_in (fun z => z) m i) H). }
    assert (Hle : (length m <= length (sig_gens s))%nat).
    { rewrite <- (map_length fst m). apply NoDup_incl_length; auto. apply sorted_nodup, Hs. }
    destruct (Nat.eqb_spec (length m) (length (sig_gens s))) as [El|El]; simpl negb; cbv iota.
    + split; [|exact Hall]. intros i; split; [|apply Hdom].
      intros H. apply (proj2 (sget_in (fun z => z) m i)). revert i H. apply NoDup_length_incl; [apply sorted_nodup, Hs|rewrite map_length; lia|exact Hincl].
    + right. destruct (Exists_dec (fun i => sget i m = None) (sig_gens s)) as [Hex|Hex].
      { intros i. destruct (sget i m); [right; discriminate|left; reflexivity]. }
      * apply Exists_exists in Hex as (i & Hi1 & Hi2). exists i, m; auto.
      * exfalso. apply El. apply Nat.le_antisymm; [exact Hle|].
        rewrite <- (map_length fst m). apply NoDup_incl_length; [exact Hn|]. intros i H.
        apply (proj1 (sget_in (fun z => z) m i)). intros Hc. apply Hex, Exists_exists. eauto.
  - destruct (negb _); left; intros g Hgs; apply Hsolves in Hgs as [H1 H2]; exact (X g H1 H2).
Qed.

(** ** C60. A call is accepted iff exactly one assignment of values to the generic parameters makes the
    declared signature the one of the call; that assignment is the one used. *)
Theorem C60_inference_exact : forall s values ins out, sig_ok s -> call_ok s values ins out ->
  (forall m, specialize s values ins out = Some m ->
     (* the map assigns the generic parameters and nothing else *)
     (forall i, In i (sig_gens s) <-> sget i m <> None) /\
     (* and an assignment solves the call iff it is the one of the map *)
     (forall g, solves s values ins out g <-> forall i, In i (sig_gens s) -> sget i m = Some (g i))) /\
  (specialize s values ins out = None ->
     (* no assignment solves the call, or several do *)
     forall g, solves s values ins out g -> (forall i, In i (sig_gens s) -> u32 (g i)) ->
     exists g' i, solves s values ins out g' /\ In i (sig_gens s) /\ g' i <> g i /\ forall j, In j (sig_gens s) -> u32 (g' j)).
Proof.
  intros s values ins out Hs Hc. pose proof (specialize_spec s values ins out Hs Hc) as X. split.
  - intros m E. rewrite E in X. destruct X as [Hd Hm]. split; [exact Hd|].
    intros g. rewrite Hm. split.
    + intros H i Hi. apply Hd in Hi. destruct (sget i m) as [v|] eqn:Ev; [|congruence].
      f_equal. symmetry. apply H, Ev.
    + intros H i v Ev. assert (Hi : In i (sig_gens s)) by (apply Hd; congruence).
      apply H in Hi. congruence.
  - intros E g Hg Hu. rewrite E in X. destruct X as [X|(i & m & Hi & Hm & X)]; [destruct (X g Hg)|].
    set (w := if g i =? 0 then 1 else 0).
    exists (fun j => if j =? i then w else g j), i. split.
    + apply X. apply X in Hg. intros j v Hj. destruct (Z.eqb_spec j i) as [->|Ej]; [congruence|]. apply Hg, Hj.
    + split; [exact Hi|]. rewrite Z.eqb_refl. split.
      * unfold w. destruct (Z.eqb_spec (g i) 0); lia.
      * intros j Hj. destruct (j =? i); [|auto]. unfold w, u32. destruct (g i =? 0); lia.
Qed.

(** The types of the arguments and of the result of an accepted call are the declared ones, with generic
    parameters replaced by the inferred values, members of structs included. *)
Theorem C60_signature : forall s values ins out m g, sig_ok s -> call_ok s values ins out ->
  Forall (instance false) (ins ++ [out]) ->
  specialize s values ins out = Some m -> (forall i v, sget i m = Some v -> g i = v) ->
  ins = map (inst g) (sig_ins s) /\ out = inst g (sig_out s).
Proof.
  intros s values ins out m g Hs Hc Hi E Hg.
  destruct (C60_inference_exact s values ins out Hs Hc) as [H _]. destruct (H m E) as [Hd Hm].
  assert (Hsol : solves s values ins out g).
  { apply Hm. intros i Hin. apply Hd in Hin. destruct (sget i m) as [v|] eqn:Ev; [|congruence].
    f_equal. symmetry. auto. }
  destruct Hsol as (_ & H1 & H2). destruct Hs as (_ & _ & Hf).
  apply Forall_app in Hi as [Hi Ho]. apply Forall_app in Hf as [Hf Hfo].
  inversion Ho; subst. inversion Hfo as [|? ? [_ Hdo] _]; subst. split.
  - clear - Hi Hf H1. induction H1 as [|d t ds ts Hdt H1 IH]; [reflexivity|].
    inversion Hi; inversion Hf as [|? ? [_ Hd] Hf']; subst. simpl. f_equal; [|auto].
    eapply fits_inst; eauto.
  - eapply fits_inst; eauto.
Qed.
End Call.

(** ** Instantiation of declared types: over numbers or expressions *)
Theorem C60_instantiation : forall {V : Type} (ofZ : Z -> V) (ofC : string -> V) d (is : list Z) (g : Z -> V) (m : @smap V),
  (forall i, In i is -> sget i m = Some (g i)) -> (forall i v, sget i m = Some v -> g i = v) -> scoped (fun i => In i is) d ->
  specialize_type ofZ ofC d m = Some (inst ofZ ofC g d).
Proof.
  intros V ofZ ofC d is g m Hm Hg Hs.
  destruct (specialize_type_total ofZ ofC d (fun i => In i is) g m Hm Hs) as [t E]. rewrite E. f_equal.
  eapply specialize_type_inst; eauto.
Qed.

(** The type the type checker gives to a call (sizes are expressions there, compared by [eqb]): if the
    arguments have the types of the declared parameters for some values of the generic parameters, the type
    is the declared result type for these values, or an error. *)
Theorem C60_output_type : forall {V : Type} (eqb : V -> V -> bool) (ofZ : Z -> V) (ofC : string -> V) defs s values ins t,
  (forall a b, eqb a b = true <-> a = b) ->
  NoDup (sig_gens s) -> Forall (fun d => resolved d = true /\ declared defs d) (sig_ins s) ->
  length values = length (sig_gens s) -> length ins = length (sig_ins s) -> Forall (instance ofZ ofC defs true) ins ->
  output_type eqb ofZ ofC s values ins = Some t ->
  forall g, Forall2 (fun i v => match v with Some v => g i = v | None => True end) (sig_gens s) values ->
            Forall2 (fits ofZ ofC g) (sig_ins s) ins ->
  t = inst ofZ ofC g (sig_out s).
Proof.
  intros V eqb ofZ ofC defs s values ins t Heq Hn Hf Hv Hi Hins E g Hg Hfit. unfold output_type in E.
  destruct (given_ok ofZ (sig_gens s) values [] (eq_sym Hv) Hn (fun _ _ => eq_refl)) as (A0 & _ & _).
  assert (Hr : forallb resolved (sig_ins s) = true).
  { apply forallb_forall. intros d Hd. rewrite Forall_forall in Hf. apply Hf, Hd. }
  assert (Hd : Forall (declared defs) (sig_ins s)) by (eapply Forall_impl; [|exact Hf]; intros ? [_ ?]; assumption).
  pose proof (check_types_ok eqb ofZ ofC defs Heq (sig_ins s) ins (given (sig_gens s) values []) (eq_sym Hi) Hr Hd Hins) as X.
  assert (Hg0 : ext g (given (sig_gens s) values [])) by (apply A0; split; [apply ext_nil|exact Hg]).
  unfold step_ok in X.
  destruct (check_types eqb ofZ (sig_ins s) ins (given (sig_gens s) values [])) as [[|] m].
  - destruct X as (A & _). eapply specialize_type_inst; [|exact E]. apply A; auto.
  - exfalso. exact (X g Hg0 Hfit).
Qed.

(** ** Non-vacuity *)
(** struct Pair<A, B> { field[A] l; u8[B][A] r; } *)
Definition x_defs (l : string) : nat * list (string * gty dconst) :=
  if String.eqb l "main/Pair" then (2%nat, [("l"%string, GArr GField (DGen 0)); ("r"%string, GArr (GArr (GUint 8) (DGen 1)) (DGen 0))]) else (0%nat, []).
(** def f<N, M>(Pair<N, M> p, (bool[M], field[4]) q) -> field[N] *)
Definition x_sig : gsig dconst Z :=
  Sig [0; 1]
      [GStruct "main/Pair" [Some (DGen 0); Some (DGen 1)] (snd (x_defs "main/Pair"));
       GTup [GArr GBool (DGen 1); GArr GField (DVal 4)]]
      (GArr GField (DGen 0)).
Definition x_ins (n m : Z) : list (gty Z) :=
  [GStruct "main/Pair" [Some n; Some m] [("l"%string, GArr GField n); ("r"%string, GArr (GArr (GUint 8) m) n)];
   GTup [GArr GBool m; GArr GField 4]].
Lemma x_sig_ok : sig_ok x_defs x_sig.
Proof.
  split; [repeat constructor; simpl; intuition discriminate|]. split.
  - intros d i Hd. simpl in Hd. destruct Hd as [<-|[<-|[<-|[]]]]; simpl; tauto.
  - repeat constructor.
Qed.
Lemma x_call_ok : forall n m out, instance (fun z => z) (fun _ => 0) x_defs true out ->
  call_ok x_defs (fun _ => 0) x_sig [Some n; None] (x_ins n m) out.
Proof.
  intros n m out Ho. repeat split; auto. repeat constructor; auto; discriminate.
Qed.
(** f::<3, _>(p, q) with Pair<3, 5> p and bool[5]: the second generic argument is inferred to be 5 *)
Example C60_inference_nonvacuous :
  sig_ok x_defs x_sig /\ call_ok x_defs (fun _ => 0) x_sig [Some 3; None] (x_ins 3 5) (GArr GField 3) /\
  Forall (instance (fun z => z) (fun _ => 0) x_defs false) (x_ins 3 5 ++ [GArr GField 3]) /\
  specialize Z.eqb (fun z => z) x_sig [Some 3; None] (x_ins 3 5) (GArr GField 3) = Some [(0, 3); (1, 5)].
Proof.
  split; [exact x_sig_ok|]. split; [apply x_call_ok; exact I|]. split; [|reflexivity].
  repeat constructor; simpl; intros; intuition congruence.
Qed.
(** wrong explicit argument, wrong result size, conflicting arguments: rejected *)
Example C60_rejected :
  specialize Z.eqb (fun z => z) x_sig [Some 4; None] (x_ins 3 5) (GArr GField 3) = None /\
  specialize Z.eqb (fun z => z) x_sig [None; None] (x_ins 3 5) (GArr GField 4) = None /\
  specialize Z.eqb (fun z => z) x_sig [None; None]
    [hd GField (x_ins 3 5); GTup [GArr GBool 6; GArr GField 4]] (GArr GField 3) = None.
Proof. repeat split. Qed.
(** def g<N>(field a) -> field: a call without explicit argument leaves N open and is rejected *)
Example C60_open_rejected :
  let s := Sig [0] [GField] GField in
  specialize Z.eqb (fun z => z) s [None] [GField] GField = None /\
  solves (fun _ => 0) s [None] [GField] GField (fun _ => 7).
Proof. split; [reflexivity|]. repeat split; repeat constructor. Qed.
(** instantiation: Pair<3, 5> *)
Example C60_instantiation_nonvacuous :
  specialize_type (fun z => z) (fun _ => 0) (hd GField (sig_ins x_sig)) [(0, 3); (1, 5)] = Some (hd GField (x_ins 3 5)).
Proof. reflexivity. Qed.
Example C60_output_type_nonvacuous :
  output_type Z.eqb (fun z => z) (fun _ => 0) x_sig [Some 3; None] (x_ins 3 5) = Some (GArr GField 3).
Proof. reflexivity. Qed.

Print Assumptions C60_inference_exact.
Print Assumptions C60_signature.
Print Assumptions C60_instantiation.
Print Assumptions C60_output_type.
