(** Witness files. Models zokrates_ast/src/ir/witness.rs:44-70 (Witness::write, Witness::read) and
    common/flat/variable.rs:36-50 (Variable::write, read) on a 64-bit target (usize and isize are 8 bytes). *)
From Coq Require Import ZArith List Bool Lia.
From Verif Require Import PField SMap IR Bytes.
Import ListNotations.
Open Scope Z_scope.

Section WitnessIO.
Context {PF : PrimeField}.

(** common/flat/variable.rs:36-39, 41-48 *)
Definition write_var (v : var) : list Z := le 8 v.
Definition read_var : reader var := read_sle 8.
(** witness.rs:48-51 *)
Definition write_entry (e : var * F) : list Z := write_var (fst e) ++ write_field (snd e).
(** witness.rs:44-53 *)
Definition write_witness (w : smap F) : list Z := le 8 (Z.of_nat (length w)) ++ flat_map write_entry w.
(** witness.rs:63-68: the loop, inserting into the map *)
Fixpoint read_entries (n : nat) (w : smap F) : reader (smap F) :=
  match n with
  | O => rret w
  | S k => rbind read_var (fun v => rbind read_field (fun x => read_entries k (sput v x w)))
  end.
(** witness.rs:55-70; the bytes after the last entry are left in the stream *)
Definition read_witness : reader (smap F) := rbind (read_le 8) (fun n => read_entries (Z.to_nat n) []).

Definition isize_ok (v : var) : Prop := - 2 ^ 63 <= v < 2 ^ 63.
Definition usize_ok (n : Z) : Prop := 0 <= n < 2 ^ 64.
Definition inserts (es : list (var * F)) (w : smap F) : smap F := fold_left (fun m e => sput (fst e) (snd e) m) es w.

Lemma read_write_var : forall v rest, isize_ok v -> read_var (write_var v ++ rest) = Some (v, rest).
Proof. intros v rest H. unfold read_var, write_var. apply read_sle_app; [lia|]. exact H. Qed.

Lemma read_entries_app : forall es w rest, Forall (fun e => isize_ok (fst e)) es ->
  read_entries (length es) w (flat_map write_entry es ++ rest) = Some (inserts es w, rest).
Proof.
  induction es as [|[v x] es IH]; intros w rest H; cbn [length read_entries flat_map inserts fold_left fst snd app]; [reflexivity|].
  inversion H as [|? ? Hv Hr]; subst. cbn [fst] in Hv. unfold write_entry at 1. cbn [fst snd]. rewrite <- !app_assoc. unfold rbind at 1. rewrite read_write_var by exact Hv.
  unfold rbind at 1. rewrite read_write_field. apply IH. exact Hr.
Qed.

Lemma stable_read_entries : forall n w, stable (read_entries n w).
Proof.
  induction n as [|n IH]; intros w; cbn [read_entries]; [apply stable_ret|]. apply stable_bind; [apply stable_read_sle|]. intros v.
  apply stable_bind; [apply stable_read_field|]. intros x. apply IH.
Qed.
Lemma stable_read_witness : stable read_witness.
Proof. apply stable_bind; [apply stable_read_le|]. intros n. apply stable_read_entries. Qed.

(** inserting the entries of a sorted map in order builds the map *)
Lemma sput_end : forall (w : smap F) v x, Forall (fun e => fst e < v) w -> sput v x w = w ++ [(v, x)].
Proof.
  induction w as [|[k y] w IH]; intros v x H; cbn [sput app]; [reflexivity|]. inversion H as [|? ? Hk Hr]; subst. cbn [fst] in Hk.
  destruct (v <? k) eqn:A; [apply Z.ltb_lt in A; lia|]. destruct (v =? k) eqn:B; [apply Z.eqb_eq in B; lia|]. rewrite IH by exact Hr. reflexivity.
Qed.
Lemma inserts_sorted : forall es w, ssorted (w ++ es) -> inserts es w = w ++ es.
Proof.
  induction es as [|[v x] es IH]; intros w H; cbn [inserts fold_left fst snd]; [rewrite app_nil_r; reflexivity|].
  assert (L : Forall (fun e => fst e < v) w).
  { clear IH. induction w as [|[k y] w IHw]; [constructor|]. inversion H as [|? ? ? Hf Hs]; subst. constructor; [|apply IHw; exact Hs].
    rewrite Forall_forall in Hf. apply (Hf (v, x)). apply in_or_app. right. left. reflexivity. }
  rewrite sput_end by exact L. change (inserts es (w ++ [(v, x)]) = w ++ (v, x) :: es). rewrite IH; rewrite <- app_assoc; [reflexivity|exact H].
Qed.

Lemma witness_roundtrip : forall w rest, ssorted w -> Forall (fun e => isize_ok (fst e)) w -> usize_ok (Z.of_nat (length w)) ->
  read_witness (write_witness w ++ rest) = Some (w, rest).
Proof.
  intros w rest Hs Hk Hn. unfold read_witness, write_witness, rbind. rewrite <- app_assoc. rewrite read_le_app by exact Hn. rewrite Nat2Z.id, read_entries_app by exact Hk.
  rewrite inserts_sorted by exact Hs. reflexivity.
Qed.

(** the files accepted *)
Lemma read_var_inv : forall bs v rest, Forall isbyte bs -> read_var bs = Some (v, rest) -> bs = write_var v ++ rest /\ isize_ok v /\ Forall isbyte rest.
Proof.
  intros bs v rest Hb H. unfold read_var, read_sle, read_le, rbind in H. destruct (read_exact 8 bs) as [[l r]|] eqn:E; [|discriminate H]. unfold rret in H. injection H as <- <-.
  destruct (read_exact_inv _ _ _ _ E) as [-> L]. apply Forall_app in Hb as [Hl Hr]. pose proof (le_val_range l Hl) as R. rewrite L in R.
  split; [|split; [|exact Hr]]. unfold write_var.
  - f_equal. unfold sign. destruct (le_val l <? _).
    + rewrite <- L. symmetry. apply le_le_val. exact Hl.
    + rewrite <- (le_le_val l Hl) at 1. rewrite L. clear. assert (G : forall n x y, le n (x - y * 256 ^ Z.of_nat n) = le n x).
      { induction n as [|n IH]; intros x y; cbn [le]; [reflexivity|]. rewrite Nat2Z.inj_succ, Z.pow_succ_r by lia.
        replace (x - y * (256 * 256 ^ Z.of_nat n)) with (x + (- (y * 256 ^ Z.of_nat n)) * 256) by ring. rewrite Z.mod_add, Z.div_add by lia. f_equal. rewrite <- (IH (x / 256) y). f_equal. }
      replace (le_val l - 256 ^ Z.of_nat 8) with (le_val l - 1 * 256 ^ Z.of_nat 8) by lia. symmetry. apply G.
  - unfold isize_ok, sign. change (2 ^ (8 * Z.of_nat 8 - 1)) with (2 ^ 63). change (256 ^ Z.of_nat 8) with (2 * 2 ^ 63) in *. destruct (le_val l <? 2 ^ 63) eqn:C; [apply Z.ltb_lt in C|apply Z.ltb_ge in C]; lia.
Qed.
Lemma read_field_inv : forall bs (x : F) rest, Forall isbyte bs -> read_field bs = Some (x, rest) -> bs = write_field x ++ rest /\ Forall isbyte rest.
Proof.
  intros bs x rest Hb H. destruct (read_field_range _ _ _ H) as [l [-> [L V]]]. apply Forall_app in Hb as [Hl Hr]. split; [|exact Hr]. unfold write_field. rewrite <- V, <- L, le_le_val by exact Hl. reflexivity.
Qed.
Lemma read_entries_inv : forall n w bs w' rest, Forall isbyte bs -> read_entries n w bs = Some (w', rest) ->
  exists es, length es = n /\ Forall (fun e => isize_ok (fst e)) es /\ bs = flat_map write_entry es ++ rest /\ w' = inserts es w.
Proof.
  induction n as [|n IH]; intros w bs w' rest Hb H; cbn [read_entries] in H.
  - unfold rret in H. injection H as <- <-. exists []. split; [reflexivity|]. split; [constructor|]. split; reflexivity.
  - unfold rbind at 1 in H. destruct (read_var bs) as [[v r]|] eqn:E; [|discriminate H]. destruct (read_var_inv _ _ _ Hb E) as [-> [Hv Hr]].
    unfold rbind in H. destruct (read_field r) as [[x r']|] eqn:E'; [|discriminate H]. destruct (read_field_inv _ _ _ Hr E') as [-> Hr'].
    destruct (IH _ _ _ _ Hr' H) as [es [L [Hes [-> ->]]]]. exists ((v, x) :: es). split; [cbn [length]; lia|]. split; [constructor; assumption|]. split; [|reflexivity].
    cbn [flat_map]. unfold write_entry at 2. cbn [fst snd]. rewrite <- !app_assoc. reflexivity.
Qed.
Lemma read_witness_iff : forall bs w rest, Forall isbyte bs ->
  (read_witness bs = Some (w, rest) <->
   exists es, usize_ok (Z.of_nat (length es)) /\ Forall (fun e => isize_ok (fst e)) es /\ bs = le 8 (Z.of_nat (length es)) ++ flat_map write_entry es ++ rest /\ w = inserts es []).
Proof.
  intros bs w rest Hb. split.
  - intros H. unfold read_witness in H. unfold rbind in H. destruct (read_le 8 bs) as [[n r]|] eqn:E; [|discriminate H].
    unfold read_le, rbind in E. destruct (read_exact 8 bs) as [[l r0]|] eqn:E0; [|discriminate E]. unfold rret in E. injection E as <- <-.
    destruct (read_exact_inv _ _ _ _ E0) as [-> L]. apply Forall_app in Hb as [Hl Hr]. pose proof (le_val_range l Hl) as R. rewrite L in R.
    destruct (read_entries_inv _ _ _ _ _ Hr H) as [es [Le [Hes [-> ->]]]]. exists es. assert (N : Z.of_nat (length es) = le_val l) by lia. rewrite N.
    split; [exact R|]. split; [exact Hes|]. split; [|reflexivity]. f_equal. pose proof (le_le_val l Hl) as X. rewrite L in X. symmetry. exact X.
  - intros [es [Hn [Hes [-> ->]]]]. unfold read_witness, rbind. rewrite read_le_app by exact Hn. rewrite Nat2Z.id, read_entries_app by exact Hes. reflexivity.
Qed.
End WitnessIO.
