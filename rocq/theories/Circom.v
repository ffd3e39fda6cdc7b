(** Model of the circom exports: /repo/zokrates_circom/src/r1cs.rs (r1cs_program), /repo/zokrates_circom/src/witness.rs
    (write_witness_values). *)
From Coq Require Import ZArith List Bool Lia Sorting.Sorted.
From Verif Require Import PField SMap IR IRSpec Wf Interp InterpProofs.
Import ListNotations.
Open Scope Z_scope.

Section Circom.
Context {PF : PrimeField}.
(** r1cs.rs l.41-44 provide_variable_idx. The HashMap gives consecutive numbers to the variables in the order of their insertion: it is
    modelled by the list of the variables in that order. *)
Definition provide (vs : list var) (v : var) : list var := if mem v vs then vs else vs ++ [v].
Fixpoint index_in (vs : list var) (v : var) : option nat :=
  match vs with [] => None | u :: r => if v =? u then Some O else match index_in r v with Some n => Some (Datatypes.S n) | None => None end end.
(** BTreeSet<Variable> *)
Definition set_of (vs : list var) : list var := map fst (fold_left (fun m v => sput v tt m) vs []).
(** the variables of a statement; [None]: a block, unreachable!() *)
Definition r1cs_vars (b : bstmt) : option (list var) :=
  match b with
  | Single (Constraint q l _) => Some (lc_vars (qleft q) ++ lc_vars (qright q) ++ lc_vars l)
  | Single _ => Some []
  | Block _ => None
  end.
Definition number (vs : list var) (l : lincomb) : option (list (nat * F)) :=
  opt_list (map (fun t => match index_in vs (fst t) with Some n => Some (n, snd t) | None => None end) l).
Definition row := (list (nat * F) * list (nat * F) * list (nat * F))%type.
Definition r1cs_row (vs : list var) (b : bstmt) : option (list row) :=
  match b with
  | Single (Constraint q l _) =>
      match number vs (qleft q), number vs (qright q), number vs l with Some x, Some y, Some z => Some [(x, y, z)] | _, _, _ => None end
  | Single _ => Some []
  | Block _ => None
  end.
(** r1cs.rs l.53-130 *)
Definition r1cs_program (p : prog) : option (list var * nat * list row) :=
  let pub := fold_left provide (map pid (filter (fun a => negb (pprivate a)) (pargs p))) (fold_left provide (map vpub (seq 0 (pret p))) [vone]) in
  match opt_list (map r1cs_vars (pstmts p)) with
  | None => None
  | Some vss => let vs := fold_left provide (set_of (concat vss)) pub in
      match opt_list (map (r1cs_row vs) (pstmts p)) with Some rows => Some (vs, length pub, concat rows) | None => None end
  end.
(** witness.rs l.77-106 write_witness_values: the entries of the witness file, with the variable each belongs to; [None]: unwrap panics *)
Fixpoint take (vs : list var) (w : smap F) : option (list (var * F) * smap F) :=
  match vs with
  | [] => Some ([], w)
  | v :: r => match sget v w with Some x => match take r (sdel v w) with Some (t, w') => Some ((v, x) :: t, w') | None => None end | None => None end
  end.
Definition witness_entries (public_inputs : list var) (w : smap F) : option (list (var * F)) :=
  let (e1, w1) := match sget vone w with Some x => ([(vone, x)], sdel vone w) | None => ([], w) end in
  match take (map vpub (seq 0 (length (filter (fun kv => is_output (fst kv)) w1)))) w1 with
  | None => None
  | Some (e2, w2) => match take (set_of public_inputs) w2 with None => None | Some (e3, w3) => Some (e1 ++ e2 ++ e3 ++ w3) end
  end.
(** ir/mod.rs l.270-276 public_inputs (a BTreeSet) *)
Definition public_inputs (p : prog) : list var := map pid (filter (fun a => negb (pprivate a)) (pargs p)).

(** ** Sorted lists *)
Definition sorted (l : list var) := StronglySorted Z.lt l.
Lemma sorted_unique : forall a b, sorted a -> sorted b -> (forall x, In x a <-> In x b) -> a = b.
Proof.
  intros a b Ha. revert b. induction Ha as [|x a Ha IH Hx]; intros b Hb E.
  - destruct b as [|y b]; [reflexivity|]. exfalso. apply (proj2 (E y)). left. reflexivity.
  - destruct Hb as [|y b Hb Hy]; [exfalso; apply (proj1 (E x)); left; reflexivity|]. rewrite Forall_forall in Hx, Hy.
    assert (x = y). { destruct (proj1 (E x) (or_introl eq_refl)) as [->|X]; auto. destruct (proj2 (E y) (or_introl eq_refl)) as [->|Y]; auto. specialize (Hx _ Y). specialize (Hy _ X). lia. }
    subst y. f_equal. apply IH; [exact Hb|]. intros z. specialize (E z). cbn in E. split; intros Z.
    + destruct (proj1 E (or_intror Z)) as [->|]; auto. specialize (Hx _ Z). lia.
    + destruct (proj2 E (or_intror Z)) as [->|]; auto. specialize (Hy _ Z). lia.
Qed.
Lemma ssorted_keys : forall V (m : @smap V), ssorted m -> sorted (map fst m).
Proof. intros V m H. induction H as [|k v r Hk Hr IH]; cbn; constructor; auto. rewrite Forall_map. exact Hk. Qed.
Lemma set_of_spec : forall vs, sorted (set_of vs) /\ forall x, In x (set_of vs) <-> In x vs.
Proof.
  intros vs. unfold set_of. assert (G : forall m : smap unit, ssorted m -> ssorted (fold_left (fun m v => sput v tt m) vs m) /\ forall x, In x (map fst (fold_left (fun m v => sput v tt m) vs m)) <-> In x vs \/ In x (map fst m)).
  { induction vs as [|v vs IH]; intros m Hm; cbn [fold_left]; [split; [exact Hm|intros x; cbn; tauto]|]. destruct (IH (sput v tt m) (sput_sorted _ _ _ Hm)) as [A B]. split; [exact A|]. intros x. rewrite B. cbn [In].
    assert (K : In x (map fst (sput v tt m)) <-> x = v \/ In x (map fst m)).
    { clear. induction m as [|[k []] m IH]; cbn; [intuition|]. destruct (Z.ltb_spec v k); [cbn; intuition|]. destruct (Z.eqb_spec v k); [subst; cbn; intuition|]. cbn. rewrite IH. intuition. }
    rewrite K. intuition. }
  destruct (G [] (ss_nil)) as [A B]. split; [apply ssorted_keys; exact A|]. intros x. rewrite B. cbn. tauto.
Qed.
Lemma sorted_filter : forall f l, sorted l -> sorted (filter f l).
Proof. intros f l H. induction H as [|x l Hl IH Hx]; cbn; [constructor|]. destruct (f x); auto. constructor; auto. rewrite Forall_forall in *. intros y Y. apply filter_In in Y. apply Hx. tauto. Qed.
Lemma sorted_set : forall l, sorted l -> set_of l = l.
Proof. intros l H. destruct (set_of_spec l) as [A B]. apply sorted_unique; auto. Qed.

(** ** The variables of the r1cs *)
Lemma provide_all : forall vs acc, NoDup acc -> NoDup vs -> fold_left provide vs acc = acc ++ filter (fun v => negb (mem v acc)) vs.
Proof.
  induction vs as [|v vs IH]; intros acc Ha Hv; cbn [fold_left filter]; [symmetry; apply app_nil_r|]. apply NoDup_cons_iff in Hv as [Hv1 Hv2]. unfold provide at 2. destruct (mem v acc) eqn:M; cbn [negb]; [apply IH; auto|].
  rewrite IH; auto.
  - rewrite <- app_assoc. cbn [app]. do 2 f_equal. apply filter_ext_in. intros u Hu. f_equal. destruct (mem u acc) eqn:E.
    + apply mem_In. apply in_or_app. left. apply mem_In. exact E.
    + destruct (mem u (acc ++ [v])) eqn:E2; auto. apply mem_In in E2. apply in_app_or in E2 as [E2|[<-|[]]]; [apply mem_In in E2; congruence|contradiction].
  - apply NoDup_Add with (a := v) (l := acc); [rewrite <- (app_nil_r acc) at 1; apply Add_app|]. split; [exact Ha|]. intros X. apply mem_In in X. congruence.
Qed.
Lemma filter_all : forall (f : var -> bool) l, (forall x, In x l -> f x = true) -> filter f l = l.
Proof. induction l as [|x l IH]; intros H; cbn; [reflexivity|]. rewrite (H x (or_introl eq_refl)). f_equal. apply IH. intros y Y. apply H. right. exact Y. Qed.
End Circom.
