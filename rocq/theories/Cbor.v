(** The subset of CBOR (RFC 7049) which serde_cbor 0.11 writes for the derived Serialize instances of
    zokrates_ast/src/ir/mod.rs, and its decoding. serde_cbor is an external crate; this is its contract:
    definite lengths, shortest heads on output, any head width on input, containers nested at most 127 deep on input
    (serde_cbor::Deserializer starts with remaining_depth 128 and fails when a container brings it to 0).
    Simplifications: indefinite lengths, tags and floats (never written for these types) are rejected, and text is not
    checked to be UTF-8. *)
From Coq Require Import String Ascii.
From Coq Require Import ZArith List Bool Lia.
From Verif Require Import Bytes.
Import ListNotations.
Open Scope Z_scope.

Inductive item :=
| IUint (n : Z) | INint (n : Z) (* the integer -1-n *) | IBytes (l : list Z) | IText (l : list Z)
| IArr (l : list item) | IMap (l : list (item * item)) | IBool (b : bool) | INull.

Definition txt (s : string) : list Z := map (fun c => Z.of_nat (nat_of_ascii c)) (list_ascii_of_string s).
Definition key (s : string) : item := IText (txt s).
Definition iint (z : Z) : item := if z <? 0 then INint (- 1 - z) else IUint z.

Definition be (n : nat) (x : Z) : list Z := rev (le n x).
Definition read_be (n : nat) : reader Z := rbind (read_exact n) (fun l => rret (le_val (rev l))).

(** heads: major type 0..7 and argument *)
Definition head (mt n : Z) : list Z :=
  if n <? 24 then [32 * mt + n]
  else if n <? 2 ^ 8 then (32 * mt + 24) :: be 1 n
  else if n <? 2 ^ 16 then (32 * mt + 25) :: be 2 n
  else if n <? 2 ^ 32 then (32 * mt + 26) :: be 4 n
  else (32 * mt + 27) :: be 8 n.
Definition read_byte : reader Z := fun bs => match bs with [] => None | b :: r => Some (b, r) end.
Definition read_head : reader (Z * Z) :=
  rbind read_byte (fun b =>
    let mt := b / 32 in let ai := b mod 32 in
    if ai <? 24 then rret (mt, ai)
    else if ai =? 24 then rbind (read_be 1) (fun n => rret (mt, n))
    else if ai =? 25 then rbind (read_be 2) (fun n => rret (mt, n))
    else if ai =? 26 then rbind (read_be 4) (fun n => rret (mt, n))
    else if ai =? 27 then rbind (read_be 8) (fun n => rret (mt, n))
    else rfail).

Fixpoint enc (i : item) : list Z :=
  match i with
  | IUint n => head 0 n
  | INint n => head 1 n
  | IBytes l => head 2 (Z.of_nat (length l)) ++ l
  | IText l => head 3 (Z.of_nat (length l)) ++ l
  | IArr l => head 4 (Z.of_nat (length l)) ++ flat_map enc l
  | IMap l => head 5 (Z.of_nat (length l)) ++ flat_map (fun kv => enc (fst kv) ++ enc (snd kv)) l
  | IBool b => head 7 (if b then 21 else 20)
  | INull => head 7 22
  end.

Fixpoint reps {A} (r : reader A) (n : nat) : reader (list A) :=
  match n with O => rret [] | S k => rbind r (fun a => rbind (reps r k) (fun l => rret (a :: l))) end.

Fixpoint dec (d : nat) : reader item :=
  rbind read_head (fun h => let (mt, n) := h in
    if mt =? 0 then rret (IUint n)
    else if mt =? 1 then rret (INint n)
    else if mt =? 2 then rbind (read_exact (Z.to_nat n)) (fun l => rret (IBytes l))
    else if mt =? 3 then rbind (read_exact (Z.to_nat n)) (fun l => rret (IText l))
    else if mt =? 4 then
      match d with
      | S (S _ as d') => rbind (reps (dec d') (Z.to_nat n)) (fun l => rret (IArr l))
      | _ => rfail
      end
    else if mt =? 5 then
      match d with
      | S (S _ as d') => rbind (reps (rbind (dec d') (fun k => rbind (dec d') (fun v => rret (k, v)))) (Z.to_nat n)) (fun l => rret (IMap l))
      | _ => rfail
      end
    else if mt =? 7 then
      (if n =? 20 then rret (IBool false) else if n =? 21 then rret (IBool true) else if n =? 22 then rret INull else rfail)
    else rfail).
(** serde_cbor::Deserializer: remaining_depth = 128 *)
Definition read_item : reader item := dec 128.

Section ItemInd.
  Variable P : item -> Prop.
  Hypothesis Hu : forall n, P (IUint n). Hypothesis Hn : forall n, P (INint n). Hypothesis Hb : forall l, P (IBytes l). Hypothesis Ht : forall l, P (IText l).
  Hypothesis Ha : forall l, Forall P l -> P (IArr l).
  Hypothesis Hm : forall l, Forall (fun kv => P (fst kv) /\ P (snd kv)) l -> P (IMap l).
  Hypothesis Ho : forall b, P (IBool b). Hypothesis Hl : P INull.
  Fixpoint item_ind' (i : item) : P i :=
    match i with
    | IUint n => Hu n | INint n => Hn n | IBytes l => Hb l | IText l => Ht l
    | IArr l => Ha l ((fix go l := match l return Forall P l with [] => Forall_nil _ | x :: r => Forall_cons _ (item_ind' x) (go r) end) l)
    | IMap l => Hm l ((fix go l := match l return Forall (fun kv => P (fst kv) /\ P (snd kv)) l with [] => Forall_nil _ | x :: r => Forall_cons _ (conj (item_ind' (fst x)) (item_ind' (snd x))) (go r) end) l)
    | IBool b => Ho b | INull => Hl
    end.
End ItemInd.

(** 64-bit arguments *)
Definition u64 (n : Z) : Prop := 0 <= n < 2 ^ 64.
Fixpoint wf_item (i : item) : Prop :=
  match i with
  | IUint n | INint n => u64 n
  | IBytes l | IText l => u64 (Z.of_nat (length l))
  | IArr l => u64 (Z.of_nat (length l)) /\ (fix go l := match l with [] => True | x :: r => wf_item x /\ go r end) l
  | IMap l => u64 (Z.of_nat (length l)) /\ (fix go l := match l with [] => True | x :: r => (wf_item (fst x) /\ wf_item (snd x)) /\ go r end) l
  | IBool _ | INull => True
  end.
Lemma wf_arr : forall l, wf_item (IArr l) <-> u64 (Z.of_nat (length l)) /\ Forall wf_item l.
Proof.
  intros l. cbn [wf_item]. generalize (u64 (Z.of_nat (length l))). intros Q. apply and_iff_compat_l. induction l as [|x r IH]; [split; [constructor|exact (fun _ => I)]|]. split.
  - intros [A B]. constructor; [exact A|]. apply IH. exact B.
  - intros H. inversion H; subst. split; [assumption|]. apply IH. assumption.
Qed.
Lemma wf_map : forall l, wf_item (IMap l) <-> u64 (Z.of_nat (length l)) /\ Forall (fun kv => wf_item (fst kv) /\ wf_item (snd kv)) l.
Proof.
  intros l. cbn [wf_item]. generalize (u64 (Z.of_nat (length l))). intros Q. apply and_iff_compat_l. induction l as [|x r IH]; [split; [constructor|exact (fun _ => I)]|]. split.
  - intros [A B]. constructor; [exact A|]. apply IH. exact B.
  - intros H. inversion H; subst. split; [assumption|]. apply IH. assumption.
Qed.
(** nesting of containers, at most [d] *)
Fixpoint nested (d : nat) (i : item) {struct d} : Prop :=
  match i with
  | IArr l => match d with O => False | S k => Forall (nested k) l end
  | IMap l => match d with O => False | S k => Forall (fun kv => nested k (fst kv) /\ nested k (snd kv)) l end
  | _ => True
  end.
Lemma nested_arr : forall d l, nested (S d) (IArr l) <-> Forall (nested d) l.
Proof. intros; reflexivity. Qed.
Lemma nested_map : forall d l, nested (S d) (IMap l) <-> Forall (fun kv => nested d (fst kv) /\ nested d (snd kv)) l.
Proof. intros; reflexivity. Qed.
Lemma nested_mono : forall i d d', (d <= d')%nat -> nested d i -> nested d' i.
Proof.
  induction i as [n|n|l|l|l IH|l IH|b|] using item_ind'; intros d d' L H; destruct d' as [|d']; try exact I; (destruct d as [|d]; [destruct H|]); try (exfalso; lia).
  - rewrite nested_arr in *. rewrite Forall_forall in *. intros x X. eapply IH; [exact X| |apply H; exact X]. lia.
  - rewrite nested_map in *. rewrite Forall_forall in *. intros x X. destruct (IH x X) as [A B]. destruct (H x X) as [C D]. split; [apply (A d d'); [lia|exact C]|apply (B d d'); [lia|exact D]].
Qed.

Lemma be_length : forall n x, length (be n x) = n.
Proof. intros n x. unfold be. rewrite rev_length. apply le_length. Qed.
Lemma read_be_app : forall n x rest, 0 <= x < 256 ^ Z.of_nat n -> read_be n (be n x ++ rest) = Some (x, rest).
Proof. intros n x rest H. unfold read_be, rbind. rewrite read_exact_app by apply be_length. unfold rret, be. rewrite rev_involutive, le_val_small by exact H. reflexivity. Qed.
Lemma stable_read_be : forall n, stable (read_be n).
Proof. intros n. apply stable_bind; [apply stable_read_exact|]. intros; apply stable_ret. Qed.

Lemma head_byte : forall mt k, 0 <= k < 32 -> (32 * mt + k) / 32 = mt /\ (32 * mt + k) mod 32 = k.
Proof. intros mt k H. replace (32 * mt + k) with (k + mt * 32) by lia. rewrite Z.div_add, Z.mod_add by lia. rewrite Z.div_small, Z.mod_small by lia. split; lia. Qed.
Lemma read_head_app : forall mt n rest, u64 n -> read_head (head mt n ++ rest) = Some ((mt, n), rest).
Proof.
  intros mt n rest H. unfold u64 in H. unfold head. destruct (n <? 24) eqn:A.
  { apply Z.ltb_lt in A. unfold read_head. cbn [app]. unfold rbind at 1. cbn [read_byte]. destruct (head_byte mt n) as [-> ->]; [lia|]. cbv zeta. apply Z.ltb_lt in A. rewrite A. reflexivity. }
  apply Z.ltb_ge in A.
  assert (G : forall k w, (k = 24 /\ w = 1%nat) \/ (k = 25 /\ w = 2%nat) \/ (k = 26 /\ w = 4%nat) \/ (k = 27 /\ w = 8%nat) -> n < 256 ^ Z.of_nat w ->
    read_head (((32 * mt + k) :: be w n) ++ rest) = Some ((mt, n), rest)).
  { intros k w Hk Hn. unfold read_head. cbn [app]. unfold rbind at 1. cbn [read_byte]. destruct (head_byte mt k) as [-> ->]; [lia|]. cbv zeta.
    destruct Hk as [[-> ->]|[[-> ->]|[[-> ->]|[-> ->]]]]; cbn -[read_be be Z.pow]; unfold rbind; (rewrite read_be_app; [reflexivity|lia]). }
  destruct (n <? 2 ^ 8) eqn:B; [apply Z.ltb_lt in B; apply G; [auto|exact B]|].
  destruct (n <? 2 ^ 16) eqn:C; [apply Z.ltb_lt in C; apply G; [auto|exact C]|].
  destruct (n <? 2 ^ 32) eqn:D; [apply Z.ltb_lt in D; apply G; [auto|exact D]|].
  apply G; [auto 6|]. apply H.
Qed.
Lemma stable_read_byte : stable read_byte.
Proof. intros [|b bs] a rest more H; [discriminate H|]. cbn [read_byte] in *. injection H as <- <-. reflexivity. Qed.
Lemma stable_read_head : stable read_head.
Proof.
  apply stable_bind; [apply stable_read_byte|]. intros b. cbv zeta.
  repeat (match goal with |- stable (if ?c then _ else _) => destruct c end; try apply stable_ret; try apply stable_fail; try (apply stable_bind; [apply stable_read_be|intros; apply stable_ret])).
Qed.
Lemma stable_reps : forall A (r : reader A) n, stable r -> stable (reps r n).
Proof.
  intros A r n H. induction n as [|n IH]; cbn [reps]; [apply stable_ret|]. apply stable_bind; [exact H|]. intros a. apply stable_bind; [exact IH|]. intros; apply stable_ret.
Qed.
Lemma reps_app : forall A B (r : reader A) (f : B -> list Z) (g : B -> A) l rest,
  (forall x rest', In x l -> r (f x ++ rest') = Some (g x, rest')) -> reps r (length l) (flat_map f l ++ rest) = Some (map g l, rest).
Proof.
  intros A B r f g l rest. induction l as [|x l IH]; intros H; cbn [length reps flat_map map app]; [reflexivity|].
  rewrite <- app_assoc. unfold rbind at 1. rewrite H by (left; reflexivity). unfold rbind. rewrite IH; [reflexivity|]. intros y rest' Y. apply H. right. exact Y.
Qed.

(** one unfolding of [dec] *)
Definition dec_body (d : nat) (h : Z * Z) : reader item :=
  let (mt, n) := h in
    if mt =? 0 then rret (IUint n)
    else if mt =? 1 then rret (INint n)
    else if mt =? 2 then rbind (read_exact (Z.to_nat n)) (fun l => rret (IBytes l))
    else if mt =? 3 then rbind (read_exact (Z.to_nat n)) (fun l => rret (IText l))
    else if mt =? 4 then
      match d with
      | S (S _ as d') => rbind (reps (dec d') (Z.to_nat n)) (fun l => rret (IArr l))
      | _ => rfail
      end
    else if mt =? 5 then
      match d with
      | S (S _ as d') => rbind (reps (rbind (dec d') (fun k => rbind (dec d') (fun v => rret (k, v)))) (Z.to_nat n)) (fun l => rret (IMap l))
      | _ => rfail
      end
    else if mt =? 7 then
      (if n =? 20 then rret (IBool false) else if n =? 21 then rret (IBool true) else if n =? 22 then rret INull else rfail)
    else rfail.
Lemma dec_eq : forall d, dec d = rbind read_head (dec_body d).
Proof. intros [|d]; reflexivity. Qed.

Lemma stable_dec : forall d, stable (dec d).
Proof.
  induction d as [d IH] using (well_founded_induction Wf_nat.lt_wf). rewrite dec_eq. apply stable_bind; [apply stable_read_head|]. intros [mt n]. unfold dec_body.
  assert (X : forall k (f : list Z -> item), stable (rbind (read_exact k) (fun l => rret (f l)))) by (intros; apply stable_bind; [apply stable_read_exact|intros; apply stable_ret]).
  destruct (mt =? 0); [apply stable_ret|]. destruct (mt =? 1); [apply stable_ret|]. destruct (mt =? 2); [apply X|]. destruct (mt =? 3); [apply X|].
  destruct (mt =? 4). { destruct d as [|[|d]]; try apply stable_fail. apply stable_bind; [apply stable_reps; apply IH; lia|intros; apply stable_ret]. }
  destruct (mt =? 5). { destruct d as [|[|d]]; try apply stable_fail. apply stable_bind; [|intros; apply stable_ret]. apply stable_reps. apply stable_bind; [apply IH; lia|]. intros k. apply stable_bind; [apply IH; lia|]. intros; apply stable_ret. }
  destruct (mt =? 7); [|apply stable_fail]. destruct (n =? 20); [apply stable_ret|]. destruct (n =? 21); [apply stable_ret|]. destruct (n =? 22); [apply stable_ret|apply stable_fail].
Qed.

Lemma u64_small : forall n, 0 <= n < 24 -> u64 n.
Proof. intros n H. unfold u64. lia. Qed.
Lemma dec_enc : forall i d rest, wf_item i -> nested d i -> dec (S d) (enc i ++ rest) = Some (i, rest).
Proof.
  induction i as [n|n|l|l|l IH|l IH|b|] using item_ind'; intros d rest W N; rewrite dec_eq; unfold rbind at 1.
  - cbn [enc]. rewrite read_head_app by exact W. reflexivity.
  - cbn [enc]. rewrite read_head_app by exact W. reflexivity.
  - cbn [enc]. rewrite <- app_assoc, read_head_app by exact W. cbn -[read_exact]. unfold rbind. rewrite Nat2Z.id, read_exact_app by reflexivity. reflexivity.
  - cbn [enc]. rewrite <- app_assoc, read_head_app by exact W. cbn -[read_exact]. unfold rbind. rewrite Nat2Z.id, read_exact_app by reflexivity. reflexivity.
  - cbn [enc]. apply wf_arr in W as [W1 W2]. rewrite <- app_assoc, read_head_app by exact W1. destruct d as [|d]; [destruct N|]. rewrite nested_arr in N.
    unfold dec_body. change (4 =? 0) with false. change (4 =? 1) with false. change (4 =? 2) with false. change (4 =? 3) with false. change (4 =? 4) with true. cbv iota. unfold rbind.
    rewrite Nat2Z.id. rewrite (reps_app _ _ _ _ (fun x => x)); [rewrite map_id; reflexivity|]. intros x rest' X. rewrite Forall_forall in IH, W2, N. apply IH; auto.
  - cbn [enc]. apply wf_map in W as [W1 W2]. rewrite <- app_assoc, read_head_app by exact W1. destruct d as [|d]; [destruct N|]. rewrite nested_map in N.
    unfold dec_body. change (5 =? 0) with false. change (5 =? 1) with false. change (5 =? 2) with false. change (5 =? 3) with false. change (5 =? 4) with false. change (5 =? 5) with true. cbv iota. unfold rbind at 1.
    rewrite Nat2Z.id. rewrite (reps_app _ _ _ _ (fun x => x)); [rewrite map_id; reflexivity|]. intros [x y] rest' X. rewrite Forall_forall in IH, W2, N. destruct (IH _ X) as [A B]. destruct (W2 _ X) as [C D]. destruct (N _ X) as [E G]. cbn [fst snd] in *.
    rewrite <- app_assoc. unfold rbind. rewrite A by assumption. rewrite B by assumption. reflexivity.
  - cbn [enc]. rewrite read_head_app by (apply u64_small; destruct b; lia). destruct b; reflexivity.
  - cbn [enc]. rewrite read_head_app by (apply u64_small; lia). reflexivity.
Qed.
Lemma read_item_app : forall i rest, wf_item i -> nested 127 i -> read_item (enc i ++ rest) = Some (i, rest).
Proof. intros i rest W N. unfold read_item. apply dec_enc; assumption. Qed.
Lemma stable_read_item : stable read_item.
Proof. apply stable_dec. Qed.
Lemma read_item_nil : read_item [] = None.
Proof. reflexivity. Qed.

(** Data nested deeper than the limit can be written but not read. *)
Fixpoint deep (n : nat) : item := match n with O => INull | S k => IArr [deep k] end.
Lemma deep_unreadable : forall n d rest, (n >= d)%nat -> (0 < d)%nat -> dec d (enc (deep n) ++ rest) = None.
Proof.
  induction n as [|n IH]; intros d rest L P; [lia|]. rewrite dec_eq. unfold rbind at 1. cbn [deep enc length flat_map]. rewrite app_nil_r, <- app_assoc, read_head_app by (apply u64_small; lia).
  unfold dec_body. change (4 =? 0) with false. change (4 =? 1) with false. change (4 =? 2) with false. change (4 =? 3) with false. change (4 =? 4) with true. cbv iota.
  destruct d as [|[|d]]; [lia|reflexivity|]. unfold rbind. change (Z.to_nat (Z.of_nat 1)) with 1%nat. cbn [reps]. unfold rbind at 1. rewrite IH by lia. reflexivity.
Qed.
