(** Generic parameters of functions and struct types: inference at a call and
    instantiation of declared types.
    Models zokrates_ast/src/typed/types.rs (check_generic, check_type, specialize_declaration_type,
    DeclarationSignature::{specialize, get_output_type}), used by zokrates_analysis/src/reducer/inline.rs
    and zokrates_core/src/semantics.rs. *)
From Coq Require Import String.
From Coq Require Import ZArith List Bool Lia.
From Verif Require Import SMap.
Import ListNotations.
Open Scope Z_scope.

(** ** Types
    zokrates_ast/src/typed/types.rs l.684-692 GType, l.329-337 GArrayType, l.396-398 GTupleType,
    l.523-531 GStructType, l.287-290 GStructMember. [C] is what sizes and generic arguments are:
    declaration constants in declarations, numbers in concrete types (expressions in the type checker).
    Simplified: the type Int of untyped literals is left out (check_type rejects it, l.1195, and
    specialize_declaration_type calls it unreachable, l.1220); the import location (alias) of a struct,
    which no function here looks at, is left out: [loc] is the canonical location. *)
Inductive gty (C : Type) :=
| GField
| GBool
| GUint (w : Z)
| GArr (t : gty C) (n : C)
| GTup (ts : list (gty C))
| GStruct (loc : string) (gs : list (option C)) (ms : list (string * gty C)).
Arguments GField {C}. Arguments GBool {C}. Arguments GUint {C}.
Arguments GArr {C}. Arguments GTup {C}. Arguments GStruct {C}.

Section Ind.
Context {C : Type} (P : gty C -> Prop).
Hypothesis (Hf : P GField) (Hb : P GBool) (Hu : forall w, P (GUint w))
  (Ha : forall t n, P t -> P (GArr t n))
  (Ht : forall ts, Forall P ts -> P (GTup ts))
  (Hs : forall l gs ms, Forall (fun m => P (snd m)) ms -> P (GStruct l gs ms)).
Fixpoint gty_ind' (t : gty C) : P t :=
  match t with
  | GField => Hf
  | GBool => Hb
  | GUint w => Hu w
  | GArr t n => Ha t n (gty_ind' t)
  | GTup ts => Ht ts ((fix go l : Forall P l := match l with [] => Forall_nil _ | x :: r => Forall_cons x (gty_ind' x) (go r) end) ts)
  | GStruct l gs ms => Hs l gs ms
      ((fix go l : Forall (fun m => P (snd m)) l := match l with [] => Forall_nil _ | x :: r => Forall_cons x (gty_ind' (snd x)) (go r) end) ms)
  end.
End Ind.

(** l.147-152 DeclarationConstant. A generic is identified by its index only (l.92-96, 104-108).
    Simplified: the Expression variant is left out, which no code path in the repository builds. *)
Inductive dconst :=
| DGen (i : Z)
| DVal (n : Z)
| DConst (c : string).

(** l.1045 GSignature; the generics of a declaration are the indices of its generic parameters
    (always `Some(Generic(..))`: l.1388, 1415 and semantics.rs l.1286). *)
Record gsig (C G : Type) := Sig { sig_gens : list G; sig_ins : list (gty C); sig_out : gty C }.
Arguments Sig {C G}. Arguments sig_gens {C G}. Arguments sig_ins {C G}. Arguments sig_out {C G}.

Section Gen.
(** What values of sizes are: u32 (Z here) in the reducer, expressions in the type checker; the code is
    generic over it too ([S] in types.rs): [eqb] is its PartialEq, [ofZ] its From<u32> (and PartialEq<u32>),
    [ofC] its From<CanonicalConstantIdentifier>. *)
Context {V : Type} (eqb : V -> V -> bool) (ofZ : Z -> V) (ofC : string -> V).
Notation dty := (gty dconst).
Notation vty := (gty V).
Notation gmap := (@smap V).

(** ** The code *)

(** types.rs l.1135-1164 check_generic. The map of constants is a mutable argument: returned. *)
Definition check_generic (c : dconst) (v : option V) (m : gmap) : bool * gmap :=
  match v with
  | None => (true, m)
  | Some v =>
    match c with
    | DGen i => match sget i m with
                | Some w => (eqb w v, m)
                | None => (true, sput i v m)
                end
    | DVal n => (eqb v (ofZ n), m)
    | DConst _ => (true, m)
    end
  end.

(** l.1181-1184: `zip(..).all(|(g0, g1)| check_generic(g0.as_ref().unwrap(), g1.as_ref(), constants))`:
    stops at the first failure, and at the end of the shorter list. A missing generic in the declaration
    panics (unwrap), here: false; declarations always give them (semantics.rs l.1425-1480). *)
Fixpoint check_generics (gs : list (option dconst)) (vs : list (option V)) (m : gmap) : bool * gmap :=
  match gs, vs with
  | Some c :: gs, v :: vs =>
    match check_generic c v m with
    | (true, m') => check_generics gs vs m'
    | (false, m') => (false, m')
    end
  | None :: _, _ :: _ => (false, m)
  | _, _ => (true, m)
  end.

(** l.1166-1198 check_type *)
Fixpoint check_type (d : dty) (t : vty) (m : gmap) {struct d} : bool * gmap :=
  match d, t with
  | GArr d0 n, GArr t0 k =>
    match check_type d0 t0 m with
    | (true, m') => check_generic n (Some k) m'
    | (false, m') => (false, m')
    end
  | GField, GField => (true, m)
  | GBool, GBool => (true, m)
  | GUint a, GUint b => (a =? b, m)
  | GStruct l0 gs _, GStruct l1 vs _ => if String.eqb l0 l1 then check_generics gs vs m else (false, m)
  | GTup ds, GTup ts =>
    if Nat.eqb (length ds) (length ts)
    then (fix go ds ts m :=
            match ds, ts with
            | d :: ds, t :: ts =>
              match check_type d t m with
              | (true, m') => go ds ts m'
              | (false, m') => (false, m')
              end
            | _, _ => (true, m)
            end) ds ts m
    else (false, m)
  | _, _ => (false, m)
  end.

(** `zip(..).all(|(decl_ty, ty)| check_type(decl_ty, ty, &mut constants))` (l.1395-1405, 1425-1429) *)
Fixpoint check_types (ds : list dty) (ts : list vty) (m : gmap) : bool * gmap :=
  match ds, ts with
  | d :: ds, t :: ts =>
    match check_type d t m with
    | (true, m') => check_types ds ts m'
    | (false, m') => (false, m')
    end
  | _, _ => (true, m)
  end.

(** l.1385-1393, 1413-1423: the explicitly given generics *)
Fixpoint given (is : list Z) (vs : list (option V)) (m : gmap) : gmap :=
  match is, vs with
  | i :: is, Some v :: vs => given is vs (sput i v m)
  | _ :: is, None :: vs => given is vs m
  | _, _ => m
  end.

(** l.1374-1411 DeclarationSignature::specialize. The two assert_eq panics (l.1383, 1384) are None. *)
Definition specialize (s : gsig dconst Z) (values : list (option V)) (ins : list vty) (out : vty) : option gmap :=
  if (Nat.eqb (length (sig_gens s)) (length values) && Nat.eqb (length (sig_ins s)) (length ins))%bool then
    let (condition, m) := check_types (sig_ins s ++ [sig_out s]) (ins ++ [out]) (given (sig_gens s) values []) in
    if negb (Nat.eqb (length m) (length (sig_gens s))) then None
    else if condition then Some m else None
  else None.

(** l.155-165 DeclarationConstant::map *)
Definition map_const (g : gmap) (c : dconst) : option V :=
  match c with
  | DGen i => sget i g
  | DVal n => Some (ofZ n)
  | DConst c => Some (ofC c)
  end.

(** `.map(..).collect::<Result<_, _>>()` *)
Fixpoint all_some {A} (l : list (option A)) : option (list A) :=
  match l with
  | [] => Some []
  | Some a :: r => match all_some r with Some r' => Some (a :: r') | None => None end
  | None :: _ => None
  end.

(** l.1239-1252: the generics inside a struct are numbered from 0 *)
Fixpoint number {A} (i : Z) (l : list A) : @smap A :=
  match l with [] => [] | a :: r => (i, a) :: number (i + 1) r end.

(** l.1212-1283 specialize_declaration_type. None: an error, or the panics of the two unwraps of l.1248. *)
Fixpoint specialize_type (d : dty) (g : gmap) {struct d} : option vty :=
  match d with
  | GField => Some GField
  | GBool => Some GBool
  | GUint w => Some (GUint w)
  | GArr t n =>
    match specialize_type t g, map_const g n with
    | Some t', Some k => Some (GArr t' k)
    | _, _ => None
    end
  | GTup ts => match all_some (map (fun t => specialize_type t g) ts) with Some l => Some (GTup l) | None => None end
  | GStruct l gs ms =>
    match all_some (map (fun c => match c with Some c => map_const g c | None => None end) gs) with
    | None => None
    | Some vs =>
      match all_some (map (fun m => match specialize_type (snd m) (number 0 vs) with Some t => Some (fst m, t) | None => None end) ms) with
      | Some ms' => Some (GStruct l (map Some vs) ms')
      | None => None
      end
    end
  end.

(** l.1413-1434 get_output_type (the outcome of the checks of the arguments is ignored, l.1425: `let _`) *)
Definition output_type (s : gsig dconst Z) (values : list (option V)) (ins : list vty) : option vty :=
  specialize_type (sig_out s) (snd (check_types (sig_ins s) ins (given (sig_gens s) values []))).

(** ** The specification *)

(** the value of a size or generic argument of a declaration, given values of the generic parameters *)
Definition value (g : Z -> V) (c : dconst) : V :=
  match c with DGen i => g i | DVal n => ofZ n | DConst c => ofC c end.

(** the type a declared type stands for; the members of a struct see the struct's own generics *)
Fixpoint inst (g : Z -> V) (d : dty) {struct d} : vty :=
  match d with
  | GField => GField
  | GBool => GBool
  | GUint w => GUint w
  | GArr t n => GArr (inst g t) (value g n)
  | GTup ts => GTup (map (inst g) ts)
  | GStruct l gs ms =>
    let vs := map (option_map (value g)) gs in
    GStruct l vs (map (fun m => (fst m, inst (fun i => match nth (Z.to_nat i) vs None with Some v => v | None => ofZ 0 end) (snd m))) ms)
  end.

(** [t] is an instance of the declared type [d], up to generic arguments of structs that are left open
    in [t] (a struct value in which a generic parameter occurs in no member), ignoring members *)
Fixpoint fits (g : Z -> V) (d : dty) (t : vty) {struct d} : Prop :=
  match d, t with
  | GField, GField => True
  | GBool, GBool => True
  | GUint a, GUint b => a = b
  | GArr d n, GArr t k => fits g d t /\ value g n = k
  | GTup ds, GTup ts =>
    (fix go ds ts : Prop := match ds, ts with
                            | [], [] => True
                            | d :: ds, t :: ts => fits g d t /\ go ds ts
                            | _, _ => False
                            end) ds ts
  | GStruct l0 gs _, GStruct l1 vs _ =>
    l0 = l1 /\ Forall2 (fun c v => match v with None => True | Some v => exists c', c = Some c' /\ value g c' = v end) gs vs
  | _, _ => False
  end.

(** no constant is left unresolved (reducer/constants_reader.rs runs before any call is inlined) and no
    generic argument of a struct is left out *)
Definition const_ok (c : dconst) : bool := match c with DConst _ => false | _ => true end.
Fixpoint resolved (d : dty) : bool :=
  match d with
  | GArr t n => resolved t && const_ok n
  | GTup ts => forallb resolved ts
  | GStruct _ gs _ => forallb (fun c => match c with Some c => const_ok c | None => false end) gs
  | _ => true
  end.

(** the generic parameters a declared type uses *)
Definition gens_const (c : dconst) : list Z := match c with DGen i => [i] | _ => [] end.
Fixpoint gens_of (d : dty) : list Z :=
  match d with
  | GArr t n => gens_of t ++ gens_const n
  | GTup ts => flat_map gens_of ts
  | GStruct _ gs _ => flat_map (fun c => match c with Some c => gens_const c | None => [] end) gs
  | _ => []
  end.

(** every struct type is an instance of the struct declared at its location: [defs l] is the number of
    generic parameters of the struct declared at [l], and its members *)
Context (defs : string -> nat * list (string * dty)).
Fixpoint declared (d : dty) : Prop :=
  match d with
  | GArr t _ => declared t
  | GTup ts => (fix go l : Prop := match l with [] => True | t :: r => declared t /\ go r end) ts
  | GStruct l gs ms => length gs = fst (defs l) /\ ms = snd (defs l)
  | _ => True
  end.
(** of a value's type: [open] tells whether generic arguments may be left open *)
Fixpoint instance (open : bool) (t : vty) : Prop :=
  match t with
  | GArr t _ => instance open t
  | GTup ts => (fix go l : Prop := match l with [] => True | t :: r => instance open t /\ go r end) ts
  | GStruct l vs ms =>
    length vs = fst (defs l) /\
    (open = false ->
     (forall v, In v vs -> v <> None) /\
     ms = map (fun m => (fst m, inst (fun i => match nth (Z.to_nat i) vs None with Some v => v | None => ofZ 0 end) (snd m))) (snd (defs l)))
  | _ => True
  end.

(** ** Proofs *)
Hypothesis eqb_eq : forall a b, eqb a b = true <-> a = b.

Definition ext (g : Z -> V) (m : gmap) : Prop := forall i v, sget i m = Some v -> g i = v.

Lemma sget_sput_same : forall i (v : V) m, sget i (sput i v m) = Some v.
Proof.
  induction m as [|[k w] r IH]; simpl; [rewrite Z.eqb_refl; reflexivity|].
  destruct (i <? k) eqn:E; simpl; [rewrite Z.eqb_refl; reflexivity|].
  destruct (i =? k) eqn:E'; simpl; [rewrite Z.eqb_refl; reflexivity|]. rewrite E'; exact IH.
Qed.
Lemma sget_sput_other : forall i j (v : V) m, i <> j -> sget j (sput i v m) = sget j m.
Proof.
  intros i j v m Hij; induction m as [|[k w] r IH]; simpl.
  - replace (j =? i) with false by (symmetry; apply Z.eqb_neq; lia). reflexivity.
  - destruct (i <? k) eqn:E; simpl.
    + replace (j =? i) with false by (symmetry; apply Z.eqb_neq; lia). reflexivity.
    + destruct (i =? k) eqn:E'; simpl.
      * apply Z.eqb_eq in E'; subst k. replace (j =? i) with false by (symmetry; apply Z.eqb_neq; lia). reflexivity.
      * rewrite IH; reflexivity.
Qed.

Lemma ext_sput : forall g m i v, sget i m = None -> (ext g (sput i v m) <-> ext g m /\ g i = v).
Proof.
  intros g m i v Hn; split.
  - intros H; split.
    + intros j w Hj. apply H. rewrite sget_sput_other; auto. intros ->; congruence.
    + apply H, sget_sput_same.
  - intros [H Hi] j w Hj. destruct (Z.eq_dec i j) as [->|E].
    + rewrite sget_sput_same in Hj; congruence.
    + rewrite sget_sput_other in Hj by auto. apply H; exact Hj.
Qed.

(** checking a type collects exactly the equations its instances must meet *)
Definition step_ok (r : bool * gmap) (m : gmap) (is : list Z) (P : (Z -> V) -> Prop) : Prop :=
  match r with
  | (true, m') => (forall g, ext g m' <-> ext g m /\ P g) /\
                  (ssorted m -> ssorted m') /\
                  (forall i, sget i m' <> None -> sget i m <> None \/ In i is)
  | (false, _) => forall g, ext g m -> ~ P g
  end.

Lemma check_generic_ok : forall c v m, const_ok c = true ->
  step_ok (check_generic c v m) m (gens_const c)
    (fun g => match v with None => True | Some v => value g c = v end).
Proof.
  intros c [v|] m Hc; simpl; [|repeat split; tauto].
  destruct c as [i|n|x]; [| |discriminate Hc]; simpl.
  - destruct (sget i m) as [w|] eqn:E; simpl.
    + destruct (eqb w v) eqn:Ew.
      * apply eqb_eq in Ew; subst w. split; [|tauto]. intros g; split; [|tauto]. intros H; split; [exact H|apply H; exact E].
      * intros g Hg Hv. apply Hg in E. rewrite Hv in E.
        assert (eqb w v = true) by (apply eqb_eq; congruence). congruence.
    + repeat split.
      * apply ext_sput in H; tauto.
      * apply ext_sput in H; tauto.
      * intros [H1 H2]; apply ext_sput; auto.
      * apply sput_sorted.
      * intros j Hj. destruct (Z.eq_dec i j) as [->|Ej]; [right; left; reflexivity|].
        left. rewrite sget_sput_other in Hj by auto. exact Hj.
  - destruct (eqb v (ofZ n)) eqn:E.
    + apply eqb_eq in E; subst v. repeat split; tauto.
    + intros g _ H. symmetry in H. apply eqb_eq in H. congruence.
Qed.

Lemma step_seq : forall r m is P (k : gmap -> bool * gmap) is' Q,
  step_ok r m is P ->
  (forall m', r = (true, m') -> step_ok (k m') m' is' Q) ->
  step_ok (match r with (true, m') => k m' | (false, m') => (false, m') end) m (is ++ is') (fun g => P g /\ Q g).
Proof.
  intros [[|] m1] m is P k is' Q H1 H2; simpl in *.
  - destruct H1 as (A & B & D). specialize (H2 m1 eq_refl). unfold step_ok in *.
    destruct (k m1) as [[|] m2].
    + destruct H2 as (A2 & B2 & D2). repeat split.
      * apply A2 in H; destruct H as [H _]; apply A in H; tauto.
      * apply A2 in H; destruct H as [H _]; apply A in H; tauto.
      * apply A2 in H; tauto.
      * intros (H & H' & H''); apply A2; split; auto; apply A; auto.
      * auto.
      * intros i Hi. apply D2 in Hi as [Hi|Hi]; [apply D in Hi as [Hi|Hi]|]; rewrite in_app_iff; auto.
    + intros g Hg [Hp Hq]. apply (H2 g); auto. apply A; auto.
  - intros g Hg [Hp _]. apply (H1 g Hg Hp).
Qed.

Lemma step_iff : forall r m is P Q, (forall g, P g <-> Q g) -> step_ok r m is P -> step_ok r m is Q.
Proof.
  intros [[|] m1] m is P Q H; simpl.
  - intros (A & B & D). split; [|auto]. intros g. rewrite A, H. reflexivity.
  - intros A g Hg Hq. apply (A g Hg), H, Hq.
Qed.

Lemma step_true : forall m is, step_ok (true, m) m is (fun _ => True).
Proof. intros; simpl; repeat split; tauto. Qed.

Definition arg_fits (g : Z -> V) (c : option dconst) (v : option V) : Prop :=
  match v with None => True | Some v => exists c', c = Some c' /\ value g c' = v end.

Lemma check_generics_ok : forall gs vs m, length gs = length vs ->
  forallb (fun c => match c with Some c => const_ok c | None => false end) gs = true ->
  step_ok (check_generics gs vs m) m (flat_map (fun c => match c with Some c => gens_const c | None => [] end) gs)
    (fun g => Forall2 (arg_fits g) gs vs).
Proof.
  induction gs as [|c gs IH]; intros [|v vs] m Hl Hr; simpl in Hl; try discriminate.
  - eapply step_iff; [|apply step_true]. intros; split; auto.
  - simpl in Hr. apply andb_prop in Hr as [Hc Hr]. destruct c as [c|]; [|discriminate].
    simpl. eapply step_iff; [|eapply step_seq; [apply check_generic_ok; exact Hc|intros m' _; apply IH; [lia|exact Hr]]].
    intros g; split.
    + intros [H1 H2]; constructor; auto. destruct v; simpl; eauto.
    + intros H; inversion H as [|? ? ? ? H1 H2]; subst. split; auto.
      destruct v as [v|]; simpl in *; auto. destruct H1 as (c' & E & H1). congruence.
Qed.

(** types whose structs have the declared number of generic arguments on both sides *)
Lemma check_type_ok : forall d t m, resolved d = true -> declared d -> instance true t ->
  step_ok (check_type d t m) m (gens_of d) (fun g => fits g d t).
Proof.
  induction d as [| |w|d n IH|ds IH|l gs ms _] using gty_ind'; intros t m Hr Hd Ht;
    destruct t as [| |w'|t k|ts|l' vs ms']; cbn -[check_generic check_generics step_ok] in *;
    try (intros g _ Hx; exact Hx); try apply step_true.
  - destruct (Z.eqb_spec w w') as [->|E]; [eapply step_iff; [|apply step_true]; tauto|intros g _ H; congruence].
  - apply andb_prop in Hr as [H1 H2]. apply step_seq; [apply IH; auto|]. intros m' _.
    apply (check_generic_ok n (Some k) m' H2).
  - destruct (Nat.eqb_spec (length ds) (length ts)) as [El|El].
    + revert ts m El Ht. induction ds as [|d ds IHd]; intros [|t ts] m El Ht; simpl in El; try discriminate.
      * apply step_true.
      * simpl in Hr. apply andb_prop in Hr as [H1 H2]. destruct Hd as [Hd1 Hd2]. destruct Ht as [Ht1 Ht2].
        inversion IH as [|? ? I1 I2]; subst. simpl. apply step_seq; [apply I1; auto|].
        intros m' _. apply IHd; auto.
    + intros g _. revert ts El Ht. clear -V. induction ds as [|d ds IHd]; intros [|t ts] El Ht; simpl in *; try tauto; try congruence.
      intros [_ H]. destruct Ht. eapply (IHd ts); eauto.
  - destruct (String.eqb_spec l l') as [->|E].
    + destruct Hd as [Hd _]. destruct Ht as [Ht _]. eapply step_iff; [|apply check_generics_ok; [congruence|exact Hr]].
      intros g; unfold arg_fits; tauto.
    + intros g _ [H _]; congruence.
Qed.

Lemma check_types_ok : forall ds ts m, length ds = length ts ->
  forallb resolved ds = true -> Forall declared ds -> Forall (instance true) ts ->
  step_ok (check_types ds ts m) m (flat_map gens_of ds) (fun g => Forall2 (fits g) ds ts).
Proof.
  induction ds as [|d ds IH]; intros [|t ts] m Hl Hr Hd Ht; simpl in Hl; try discriminate.
  - eapply step_iff; [|apply step_true]. intros; split; auto.
  - simpl in Hr. apply andb_prop in Hr as [H1 H2]. inversion Hd; inversion Ht; subst.
    simpl. eapply step_iff; [|eapply step_seq; [apply check_type_ok; auto|intros; apply IH; auto]].
    intros g; split; [intros [? ?]; constructor; auto|intros H; inversion H; auto].
Qed.

Definition agrees (g : Z -> V) (is : list Z) (vs : list (option V)) : Prop :=
  Forall2 (fun i v => match v with Some v => g i = v | None => True end) is vs.

Lemma given_ok : forall is vs m, length is = length vs -> NoDup is -> (forall i, In i is -> sget i m = None) ->
  (forall g, ext g (given is vs m) <-> ext g m /\ agrees g is vs) /\
  (ssorted m -> ssorted (given is vs m)) /\
  (forall i, sget i (given is vs m) <> None -> sget i m <> None \/ In i is).
Proof.
  induction is as [|i is IH]; intros [|v vs] m Hl Hn Hm; simpl in Hl; try discriminate; simpl.
  - repeat split; try tauto. constructor.
  - inversion Hn as [|? ? Hi Hn']; subst. destruct v as [v|].
    + destruct (IH vs (sput i v m)) as (A & B & D); auto.
      { intros j Hj. rewrite sget_sput_other by (intros ->; auto). apply Hm; right; exact Hj. }
      pose proof (ext_sput) as X. repeat split.
      * apply A in H. destruct H as [H _]. apply X in H; [tauto|apply Hm; left; reflexivity].
      * apply A in H. destruct H as [H1 H2]. apply X in H1; [|apply Hm; left; reflexivity]. constructor; tauto.
      * intros [H1 H2]. apply A. inversion H2; subst. split; auto. apply X; auto. apply Hm; left; reflexivity.
      * intros Hs. apply B, sput_sorted, Hs.
      * intros j Hj. apply D in Hj as [Hj|Hj]; auto.
        destruct (Z.eq_dec i j) as [->|E]; [auto|]. rewrite sget_sput_other in Hj by auto. auto.
    + destruct (IH vs m) as (A & B & D); auto.
      { intros j Hj. apply Hm; right; exact Hj. }
      repeat split.
      * apply A in H; tauto.
      * apply A in H; constructor; tauto.
      * intros [H1 H2]. apply A. inversion H2; subst; auto.
      * exact B.
      * intros j Hj. apply D in Hj as [Hj|Hj]; auto.
Qed.

(** keys of sorted maps *)
Lemma sget_in : forall (m : gmap) i, sget i m <> None <-> In i (map fst m).
Proof.
  induction m as [|[k v] r IH]; intros i; simpl; [tauto|].
  destruct (Z.eqb_spec i k) as [->|E].
  - split; [auto|discriminate].
  - rewrite IH. split; [auto|intros [H|H]; [congruence|exact H]].
Qed.
Lemma sorted_nodup : forall m : gmap, ssorted m -> NoDup (map fst m).
Proof.
  induction 1 as [|k v r Hf Hs IH]; simpl; constructor; auto.
  intros Hin. apply in_map_iff in Hin as (x & Ex & Hx). rewrite Forall_forall in Hf.
  specialize (Hf x Hx). lia.
Qed.

(** an assignment that follows a map where it is defined *)
Definition over (m : gmap) (g : Z -> V) (i : Z) : V := match sget i m with Some v => v | None => g i end.
Lemma over_ext : forall m g, ext (over m g) m.
Proof. intros m g i v H. unfold over. rewrite H. reflexivity. Qed.
End Gen.
