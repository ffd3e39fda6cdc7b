(** Facts about the JSON side of Abi.v *)
From Coq Require Import String Ascii.
From Coq Require Import ZArith List Bool Lia.
From Verif Require Import PField Str Interp Abi.
Import ListNotations.
Open Scope Z_scope.

Lemma digit_char_not_x : forall d, 0 <= d < 16 -> digit_char d <> "x"%char.
Proof. intros d H E. apply (f_equal (digit 16)) in E. rewrite digit_char_ok in E by lia. discriminate E. Qed.
Lemma trim_digits : forall ds, Forall (fun d => 0 <= d < 16) ds -> trim_0x (of_digits ds) = of_digits ds.
Proof.
  intros ds H. destruct ds as [|d [|e ds]]; [reflexivity| |].
  - cbn [of_digits]. destruct (digit_char d) as [[|] [|] [|] [|] [|] [|] [|] [|]]; reflexivity.
  - inversion H as [|? ? _ H']; subst. inversion H' as [|? ? He _]; subst. cbn [of_digits]. pose proof (digit_char_not_x e He) as N.
    destruct (digit_char d) as [[|] [|] [|] [|] [|] [|] [|] [|]]; try reflexivity.
    destruct (digit_char e) as [[|] [|] [|] [|] [|] [|] [|] [|]]; try reflexivity. exfalso. apply N. reflexivity.
Qed.
Lemma bits_nonneg : forall w, 0 <= bits_of w. Proof. destruct w; cbn; lia. Qed.
Lemma parse_hex : forall w k n, 0 <= n < 2 ^ bits_of w -> parse_uint w (hex_string k n) = Some n.
Proof.
  intros w k n H. unfold parse_uint, hex_string. destruct (num_digits_ok 16 n ltac:(lia) ltac:(lia)) as [A [B [d [r [C _]]]]].
  set (ds := repeat 0 (k - length (num_digits 16 n)) ++ num_digits 16 n).
  assert (Hd : Forall (fun d => 0 <= d < 16) ds) by (apply Forall_app; split; [|exact A]; clear; induction (k - _)%nat; constructor; [lia|assumption]).
  assert (Hn : ds <> []) by (unfold ds; rewrite C; intros X; apply app_eq_nil in X as [_ X]; discriminate X).
  destruct (uint_parse 10 (bits_of w) (String "0" (String "x" (of_digits ds)))) as [m|] eqn:E.
  - exfalso. apply uint_parse_spec in E as [t [[<-|S] [[l [_ [D _]]] _]]]; [discriminate D|discriminate S|lia|apply bits_nonneg].
  - cbn [trim_0x]. rewrite trim_digits by exact Hd. apply uint_parse_spec; [lia|apply bits_nonneg|]. exists (of_digits ds). split; [left; reflexivity|]. split; [|lia].
    exists ds. split; [destruct ds; [contradiction|discriminate]|]. split; [apply digits_of_digits; [lia|exact Hd]|]. unfold ds. rewrite value_zeros. exact B.
Qed.
(** ** Objects *)
Lemma minsert_new : forall k v m, ~ In k (map fst m) -> minsert k v m = m ++ [(k, v)].
Proof.
  intros k v m. induction m as [|[k' v'] m IH]; intros H; [reflexivity|]. cbn [minsert map fst In app] in *. destruct (String.eqb_spec k k') as [->|N]; [exfalso; apply H; left; reflexivity|]. rewrite IH; [reflexivity|]. intros X. apply H. right. exact X.
Qed.
Section JsonFacts.
Context {PF : PrimeField}.
Lemma json_struct : forall l, NoDup (map fst l) -> to_json (VStruct l) = JObject (map (fun kv => (fst kv, to_json (snd kv))) l).
Proof.
  intros l N. cbn [to_json]. f_equal. enough (G : forall acc, NoDup (map fst acc ++ map fst l) ->
    (fix go (l : list (string * value_)) (acc : list (string * json)) : list (string * json) := match l with [] => acc | (k, v) :: r => go r (minsert k (to_json v) acc) end) l acc = acc ++ map (fun kv => (fst kv, to_json (snd kv))) l) by (apply (G []); exact N).
  clear N. induction l as [|[k v] l IH]; intros acc N; [symmetry; apply app_nil_r|]. cbn [map fst snd]. rewrite minsert_new.
  - rewrite IH; [rewrite <- app_assoc; reflexivity|]. rewrite map_app, <- app_assoc. exact N.
  - cbn [map fst] in N. apply NoDup_remove_2 in N. intros X. apply N. apply in_or_app. left. exact X.
Qed.
Fixpoint parse_members (ms : list (string * cty)) (o : list (string * json)) : option (list (string * value_)) :=
  match ms with
  | [] => Some []
  | (k, t) :: r => match mremove k o with
                   | Some (j, o') => match parse_value t j, parse_members r o' with Some v, Some vs => Some ((k, v) :: vs) | _, _ => None end
                   | None => None
                   end
  end.
Fixpoint parse_list (ts : list cty) (a : list json) : option (list value_) :=
  match ts, a with t :: r, j :: b => match parse_value t j, parse_list r b with Some v, Some vs => Some (v :: vs) | _, _ => None end | _, _ => Some [] end.
Lemma parse_struct : forall ms o, parse_value (CStruct ms) (JObject o) = if (length o =? length ms)%nat then option_map VStruct (parse_members ms o) else None.
Proof. reflexivity. Qed.
Lemma parse_tuple : forall ts a, parse_value (CTuple ts) (JArray a) = if (length a =? length ts)%nat then option_map VTuple (parse_list ts a) else None.
Proof. reflexivity. Qed.
Lemma distinct_tuple : forall ts, distinct_members (CTuple ts) <-> Forall distinct_members ts.
Proof. intros ts. cbn. induction ts as [|t ts IH]; [split; [constructor|trivial]|]. rewrite IH. split; [intros [A B]; constructor; assumption|]. intros H. inversion H; subst. split; assumption. Qed.
Lemma distinct_struct : forall ms, distinct_members (CStruct ms) <-> NoDup (map fst ms) /\ Forall (fun m => distinct_members (snd m)) ms.
Proof. intros ms. cbn. apply and_iff_compat_l. induction ms as [|[k t] ms IH]; [split; [constructor|trivial]|]. rewrite IH. split; [intros [A B]; constructor; assumption|]. intros H. inversion H; subst. split; assumption. Qed.
Lemma f2_len : forall A B (R : A -> B -> Prop) l m, Forall2 R l m -> length l = length m.
Proof. intros A B R l m H. induction H; cbn; auto. Qed.
Lemma members_fst : forall (l : list (string * value_)) ms, Forall2 (fun kv kt => fst kv = fst kt /\ has_type (snd kv) (snd kt)) l ms -> map fst l = map fst ms.
Proof. intros l ms H. induction H as [|x y l ms [E _] _ IH]; [reflexivity|]. cbn. rewrite E, IH. reflexivity. Qed.
Lemma parse_to_json : forall t v, has_type v t -> distinct_members t -> parse_value t (to_json v) = Some v.
Proof.
  induction t as [| |w|ty n IH|ts IH|ms IH|] using cty_ind'; intros v H Hd; destruct v; try (cbn in H; contradiction).
  - cbn [to_json parse_value]. unfold parse_field, try_from_dec_str, to_dec_string. pose proof (fval_range x). rewrite ark_dec by lia. rewrite of_Z_fval. reflexivity.
  - reflexivity.
  - cbn in H. destruct H as [<- H]. assert (E : exists k, to_json (VUint w0 n) = JString (hex_string k n)) by (destruct w0; eexists; reflexivity). destruct E as [k ->]. cbn [parse_value]. rewrite parse_hex by exact H. reflexivity.
  - apply type_array in H as [L H]. cbn in Hd. cbn [to_json parse_value]. rewrite map_length, L, Nat.eqb_refl, map_map. erewrite opt_list_map_some; [reflexivity|]. clear L. induction H as [|v l Hv Hl IHl]; constructor; [apply IH; assumption|exact IHl].
  - apply type_tuple in H. apply distinct_tuple in Hd. cbn [to_json]. rewrite parse_tuple, map_length, (f2_len _ _ _ _ _ H), Nat.eqb_refl. assert (E : parse_list ts (map to_json l) = Some l); [|rewrite E; reflexivity].
    revert IH Hd. induction H as [|v t l ts Hv Hl IHl]; intros IH Hd; [reflexivity|]. inversion IH as [|? ? I1 I2]; subst. inversion Hd as [|? ? D1 D2]; subst. cbn [map parse_list]. rewrite (I1 v Hv D1), (IHl I2 D2). reflexivity.
  - apply type_struct in H. apply distinct_struct in Hd as [N Hd]. pose proof (members_fst _ _ H) as M. rewrite json_struct by (rewrite M; exact N). rewrite parse_struct, map_length, (f2_len _ _ _ _ _ H), Nat.eqb_refl.
    assert (E : parse_members ms (map (fun kv => (fst kv, to_json (snd kv))) l) = Some l); [|rewrite E; reflexivity]. clear N M.
    revert IH Hd. induction H as [|[k v] [k' t] l ms [Hk Hv] Hl IHl]; intros IH Hd; [reflexivity|]. inversion IH as [|? ? I1 I2]; subst. inversion Hd as [|? ? D1 D2]; subst. cbn [fst snd] in *. subst k'. cbn [map parse_members mremove fst snd]. rewrite String.eqb_refl, (I1 v Hv D1), (IHl I2 D2). reflexivity.
Qed.
Lemma parse_uint_range : forall w s n, parse_uint w s = Some n -> 0 <= n < 2 ^ bits_of w.
Proof.
  intros w s n H. unfold parse_uint in H.
  assert (G : forall radix s, 1 < radix <= 36 -> uint_parse radix (bits_of w) s = Some n -> 0 <= n < 2 ^ bits_of w).
  { intros radix s0 R E. apply uint_parse_spec in E as [t [_ [[ds [_ [D <-]]] L]]]; [|exact R|apply bits_nonneg]. split; [|exact L]. apply value_nonneg; [lia|]. eapply Forall_impl; [|eapply digits_range; exact D]. cbn. intros; lia. }
  destruct (uint_parse 10 (bits_of w) s) as [m|] eqn:E; [injection H as <-; eapply (G 10); [lia|exact E]|eapply (G 16); [lia|exact H]].
Qed.
Lemma parse_typed : forall t j v, parse_value t j = Some v -> has_type v t.
Proof.
  induction t as [| |w|ty n IH|ts IH|ms IH|] using cty_ind'; intros j v H.
  - destruct j; try discriminate H. cbn [parse_value] in H. destruct (parse_field s); [|discriminate H]. injection H as <-. exact I.
  - destruct j; try discriminate H. injection H as <-. exact I.
  - destruct j; try discriminate H. cbn [parse_value] in H. destruct (parse_uint w s) as [n|] eqn:E; [|discriminate H]. injection H as <-. split; [reflexivity|]. eapply parse_uint_range; exact E.
  - destruct j; try discriminate H. cbn [parse_value] in H. destruct (Nat.eqb_spec (length l) n) as [L|]; [|discriminate H]. destruct (opt_list _) as [vs|] eqn:E in H; [|discriminate H]. injection H as <-. apply opt_list_map_inv in E.
    apply type_array. split; [rewrite <- L; symmetry; eapply f2_len; exact E|]. clear L. induction E as [|a b l vs X _ IHl]; constructor; [eapply IH; exact X|exact IHl].
  - destruct j; try discriminate H. rewrite parse_tuple in H. destruct (Nat.eqb_spec (length l) (length ts)) as [L|]; [|discriminate H]. destruct (parse_list ts l) as [vs|] eqn:E; [|discriminate H]. injection H as <-. apply type_tuple.
    revert l vs L E. induction IH as [|t ts I1 I2 IHt]; intros [|j l] vs L E; try discriminate L; cbn [parse_list] in E; [injection E as <-; constructor|].
    destruct (parse_value t j) as [v|] eqn:E1; [|discriminate E]. destruct (parse_list ts l) as [r|] eqn:E2; [|discriminate E]. injection E as <-. constructor; [eapply I1; exact E1|eapply IHt; [|exact E2]; cbn in L; lia].
  - destruct j; try discriminate H. rewrite parse_struct in H. destruct (length m =? length ms)%nat; [|discriminate H]. destruct (parse_members ms m) as [vs|] eqn:E; [|discriminate H]. injection H as <-. apply type_struct.
    revert m vs E. induction IH as [|[k t] ms I1 I2 IHt]; intros o vs E; cbn [parse_members] in E; [injection E as <-; constructor|].
    destruct (mremove k o) as [[j o']|]; [|discriminate E]. destruct (parse_value t j) as [v|] eqn:E1; [|discriminate E]. destruct (parse_members ms o') as [r|] eqn:E2; [|discriminate E]. injection E as <-. constructor; [split; [reflexivity|eapply I1; exact E1]|eapply IHt; exact E2].
  - discriminate H.
Qed.
End JsonFacts.
