(** Proofs about TProp.v: a simplified expression has the same type and, where the original has a value, the same value. *)
From Coq Require Import String Ascii.
From Coq Require Import ZArith NArith List Bool Lia.
From Verif Require Import PField Interp Bits Zir CgProg UintOpt Str Abi Typed Flatten FlattenOps FlattenSim FlattenRun Writes Redefine WritesVal WritesExp ZPropStmt Src SrcTy TProp.
Import ListNotations.
Open Scope Z_scope.

Section TPropOk.
Context {PF : PrimeField}.

(** ** Logs *)
Lemma sub_empty : forall A (a : list A), sublog [] a.
Proof. induction a; constructor; assumption. Qed.
Lemma sub_app : forall A (a b c d : list A), sublog a b -> sublog c d -> sublog (a ++ c) (b ++ d).
Proof. intros A a b c d H K. induction H; cbn [app]; [exact K|constructor; assumption|constructor; assumption]. Qed.
Lemma sub_pre : forall A (a b c : list A), sublog a b -> sublog a (c ++ b).
Proof. intros A a b c H. exact (sub_app _ [] c a b (sub_empty _ c) H). Qed.
Lemma sub_nil_inv : forall A (a : list A), sublog a [] -> a = [].
Proof. intros A a H. inversion H. reflexivity. Qed.
Lemma sub_tr : forall A (a b c : list A), sublog a b -> sublog b c -> sublog a c.
Proof. intros A a b c H K. revert a H. induction K as [|x b c K IH|x b c K IH]; intros a H; [exact H| |constructor; apply IH; exact H]. inversion H; subst; constructor; apply IH; assumption. Qed.

(** ** Literals *)
Lemma u_seval_op : forall call rho op args, seval call rho (SOp op args) = obnd (sevals call rho args) (fun a => obnd (sem_op op (map is_slit args) (snd a)) (fun v => Ok (fst a, v))).
Proof. reflexivity. Qed.
Lemma lits_eval : forall call rho l (f : value_ -> sexp), Forall (fun v => seval call rho (f v) = Ok ([], v)) l -> sevals call rho (map f l) = Ok ([], l).
Proof. intros call rho l f H. induction H as [|v l E H IH]; [reflexivity|]. cbn [map]. rewrite u_el_cons, E. cbn [obnd]. rewrite IH. reflexivity. Qed.
Lemma spread_false : forall l, spread (repeat false (length l)) l = Some l.
Proof. induction l as [|v l IH]; [reflexivity|]. cbn [length repeat spread]. rewrite IH. reflexivity. Qed.
Definition lit_list (l : list value_) (ts : list cty) : list sexp := (fix go l ts := match l, ts with v :: r, t :: s => lit t v :: go r s | _, _ => [] end) l ts.
Definition lit_members (l : list (string * value_)) (ms : list (string * cty)) : list sexp := (fix go l ms := match l, ms with (_, v) :: r, (_, t) :: s => lit t v :: go r s | _, _ => [] end) l ms.
Lemma arr_false : forall ty n, arr_ty ty (repeat false n) (repeat ty n) n.
Proof. induction n; cbn [repeat]; constructor; assumption. Qed.
Lemma xtys_f2 : forall S es ts, xtys S es ts <-> Forall2 (xty S) es ts.
Proof. intros S es ts. split; [induction 1; constructor; assumption|induction 1; constructor; assumption]. Qed.
Lemma lit_ok : forall t v, has_type v t -> (forall S, xty S (lit t v) t) /\ (forall call rho, seval call rho (lit t v) = Ok ([], v)) /\ isc (lit t v) = true.
Proof.
  induction t as [| |w|ty n IH|ts IH|ms IH|] using cty_ind'; intros v H; destruct v; try (cbn in H; contradiction).
  - split; [|split; reflexivity]. intros S. apply XOp with []; constructor.
  - split; [|split; reflexivity]. intros S. apply XOp with []; constructor.
  - destruct H as [-> H]. split; [|split; reflexivity]. intros S. apply XOp with []; [constructor|constructor; exact H].
  - apply type_array in H as [L H]. cbn [lit]. split; [|split].
    + intros S. apply XOp with (repeat ty n); [|subst n; constructor; apply arr_false]. apply xtys_f2. subst n. clear - IH H. induction H as [|v l T H IHl]; cbn [map length repeat]; constructor; [apply IH; exact T|exact IHl].
    + intros call rho. rewrite u_seval_op, (lits_eval call rho l (lit ty)) by (apply Forall_impl with (2 := H); intros v T; apply IH; exact T). cbn [obnd snd fst sem_op]. rewrite spread_false. reflexivity.
    + cbn [isc]. apply forallb_forall. intros e I. apply in_map_iff in I as [v [<- I]]. rewrite Forall_forall in H. apply IH. apply H. exact I.
  - apply type_tuple in H. cbn [lit]. change (SOp OTup _) with (SOp OTup (lit_list l ts)).
    assert (Q : (forall S, Forall2 (xty S) (lit_list l ts) ts) /\ (forall call rho, sevals call rho (lit_list l ts) = Ok ([], l)) /\ forallb isc (lit_list l ts) = true).
    { induction H as [|v t l ts T H IHl]; [split; [constructor|split; reflexivity]|]. inversion IH; subst. destruct (IHl ltac:(assumption)) as [A [B D]]. match goal with X : forall v, has_type v t -> _ |- _ => destruct (X v T) as [A1 [B1 D1]] end. cbn [lit_list]. fold (lit_list l ts). split; [intros S; constructor; auto|]. split; [intros call rho; rewrite u_el_cons, B1; cbn [obnd]; rewrite B; reflexivity|cbn [forallb]; rewrite D1; exact D]. }
    destruct Q as [A [B D]]. split; [intros S; apply XOp with ts; [apply xtys_f2; apply A|constructor]|]. split; [intros call rho; rewrite u_seval_op, B; reflexivity|exact D].
  - apply type_struct in H. cbn [lit]. change (SOp (OStr (map fst ms)) _) with (SOp (OStr (map fst ms)) (lit_members l ms)).
    assert (Q : (forall S, Forall2 (xty S) (lit_members l ms) (map snd ms)) /\ (forall call rho, sevals call rho (lit_members l ms) = Ok ([], map snd l)) /\ forallb isc (lit_members l ms) = true /\ map fst l = map fst ms /\ length l = length ms).
    { induction H as [|[k v] [k' t] l ms [K T] H IHl]; [split; [constructor|repeat split; reflexivity]|]. inversion IH; subst. destruct (IHl ltac:(assumption)) as [A [B [D [M L]]]]. cbn [fst snd] in *. match goal with X : forall v, has_type v t -> _ |- _ => destruct (X v T) as [A1 [B1 D1]] end. cbn [lit_members]. fold (lit_members l ms). split; [intros S; constructor; cbn [snd]; auto|]. split; [intros call rho; rewrite u_el_cons, B1; cbn [obnd]; rewrite B; reflexivity|split; [cbn [forallb]; rewrite D1; exact D|cbn [map length fst]; rewrite K, M, L; auto]]. }
    destruct Q as [A [B [D [M L]]]]. split.
    + intros S. replace (CStruct ms) with (CStruct (combine (map fst ms) (map snd ms))) by (f_equal; clear; induction ms as [|[k t] ms IH]; [reflexivity|cbn [map combine fst snd]; rewrite IH; reflexivity]). apply XOp with (map snd ms); [apply xtys_f2; apply A|constructor; rewrite !map_length; reflexivity].
    + split; [|exact D]. intros call rho. rewrite u_seval_op, B. cbn [obnd snd fst sem_op]. rewrite !map_length, L, Nat.eqb_refl. cbn [obnd]. rewrite <- M. repeat f_equal. clear. induction l as [|[k v] l IH]; [reflexivity|cbn [map combine fst snd]; rewrite IH; reflexivity].
Qed.
Lemma opt_list_f2 : forall A B (f : A -> option B) l r, opt_list (map f l) = Some r <-> Forall2 (fun a b => f a = Some b) l r.
Proof.
  intros A B f. induction l as [|a l IH]; intros r; cbn [map opt_list].
  - split; [intros [= <-]; constructor|intros H; inversion H; reflexivity].
  - split.
    + destruct (f a) as [b|] eqn:E; [|discriminate]. destruct (opt_list (map f l)) as [r'|] eqn:Q; [|discriminate]. intros [= <-]. constructor; [exact E|apply IH; reflexivity].
    + intros H. inversion H as [|? b ? r' E H']; subst. rewrite E. apply IH in H'. rewrite H'. reflexivity.
Qed.
(** ** Closed constants *)
Section sexp_ind.
Variable P : sexp -> Prop.
Hypothesis HId : forall t x, P (SId t x).
Hypothesis HOp : forall op args, Forall P args -> P (SOp op args).
Hypothesis HPar : forall k e cs, P e -> Forall P cs -> P (SPar k e cs).
Hypothesis HCond : forall c x y, P c -> P x -> P y -> P (SCond c x y).
Hypothesis HCall : forall ts t f gens args, Forall P gens -> Forall P args -> P (SCall ts t f gens args).
Fixpoint sexp_ind' (e : sexp) : P e :=
  let go := fix go l : Forall P l := match l with [] => Forall_nil _ | e :: r => Forall_cons _ (sexp_ind' e) (go r) end in
  match e with
  | SId t x => HId t x
  | SOp op args => HOp op args (go args)
  | SPar k e cs => HPar k e cs (sexp_ind' e) (go cs)
  | SCond c x y => HCond c x y (sexp_ind' c) (sexp_ind' x) (sexp_ind' y)
  | SCall ts t f gens args => HCall ts t f gens args (go gens) (go args)
  end.
End sexp_ind.
Lemma evals_nil : forall call rho es vs, Forall2 (fun e v => seval call rho e = Ok ([], v)) es vs -> sevals call rho es = Ok ([], vs).
Proof. intros call rho es vs H. induction H as [|e v es vs E H IH]; [reflexivity|]. rewrite u_el_cons, E. cbn [obnd]. rewrite IH. reflexivity. Qed.
Lemma f2_imp : forall A B (R R' : A -> B -> Prop) l m, Forall2 R l m -> Forall (fun a => forall b, R a b -> R' a b) l -> Forall2 R' l m.
Proof. intros A B R R' l m H. induction H; intros K; inversion K; subst; constructor; auto. Qed.
Definition const_op (op : top) : bool := match op with OFVal _ | OBVal _ | OUVal _ _ | OArr _ _ _ | OTup | OStr _ => true | _ => false end.
Lemma cval_op : forall op args, cval (SOp op args) = if const_op op then match opt_list (map cval args) with Some vs => ok_opt (sem_op op [] vs) | None => None end else None.
Proof. intros [] args; reflexivity. Qed.
Definition cval_par (k : pkind) (e : sexp) (cs : list sexp) : option value_ :=
  match cval e, opt_list (map cval cs) with Some v, Some vs => match nums vs with Some ns => match par_op k ns with Some op => ok_opt (sem_op op [] [v]) | None => None end | None => None end | _, _ => None end.
Lemma cval_spar : forall k e cs v, cval (SPar k e cs) = Some v -> cval_par k e cs = Some v.
Proof. intros [] e cs v H; cbn [cval] in H; try discriminate H; [exact H|]. destruct (is_arr e); [exact H|discriminate H]. Qed.
Lemma const_lits : forall op l1 l2 vs, const_op op = true -> sem_op op l1 vs = sem_op op l2 vs.
Proof. intros [] l1 l2 vs H; try discriminate H; reflexivity. Qed.
Lemma ok_opt_ok : forall A (o : outcome A) a, ok_opt o = Some a -> o = Ok a.
Proof. intros A o a H. destruct o; try discriminate H. injection H as ->. reflexivity. Qed.
Lemma cval_eval : forall e v, cval e = Some v -> forall call rho, seval call rho e = Ok ([], v).
Proof.
  induction e as [t x|op args IH|k e cs IHe IHc|c x y _ _ _|ts t f g a _ _] using sexp_ind'; intros v H call rho; try discriminate H.
  - rewrite cval_op in H. destruct (const_op op) eqn:K; [|discriminate H]. destruct (opt_list (map cval args)) as [vs|] eqn:E; [|discriminate H]. apply opt_list_f2 in E. apply ok_opt_ok in H.
    rewrite u_seval_op, (evals_nil call rho args vs). + cbn [obnd snd fst]. rewrite (const_lits op _ [] vs K), H. reflexivity. + apply f2_imp with (1 := E). apply Forall_impl with (2 := IH). intros e H1 w W. apply H1. exact W.
  - apply cval_spar in H. unfold cval_par in H. destruct (cval e) as [ve|] eqn:Ee; [|discriminate H]. destruct (opt_list (map cval cs)) as [vs|] eqn:E; [|discriminate H]. destruct (nums vs) as [ns|] eqn:N; [|discriminate H]. destruct (par_op k ns) as [op|] eqn:P; [|discriminate H]. apply ok_opt_ok in H. apply opt_list_f2 in E.
    cbn [seval]. rewrite (IHe _ eq_refl). cbn [obnd]. change (eval_list (seval call rho) cs) with (sevals call rho cs). rewrite (evals_nil call rho cs vs). + cbn [obnd snd fst]. rewrite N. cbn [of_opt obnd]. rewrite P. cbn [of_opt obnd]. rewrite H. reflexivity. + apply f2_imp with (1 := E). apply Forall_impl with (2 := IHc). intros e' H1 w W. apply H1. exact W.
Qed.
Lemma cval_typed : (forall S e t, xty S e t -> forall v, cval e = Some v -> has_type v t) /\ (forall S es ts, xtys S es ts -> forall vs, opt_list (map cval es) = Some vs -> Forall2 has_type vs ts).
Proof.
  apply xty_mut.
  - intros S t x _ v H. discriminate H.
  - intros S op args ts t _ IH Y v H. rewrite cval_op in H. destruct (const_op op); [|discriminate H]. destruct (opt_list (map cval args)) as [vs|]; [|discriminate H]. apply ok_opt_ok in H. pose proof (op_typed op ts t vs [] Y (IH _ eq_refl)) as Q. rewrite H in Q. exact Q.
  - intros S k e cs te t us _ IHe _ IHc U P v H. apply cval_spar in H. unfold cval_par in H. destruct (cval e) as [ve|] eqn:Ee; [|discriminate H]. destruct (opt_list (map cval cs)) as [vs|] eqn:E; [|discriminate H]. destruct (nums vs) as [ns|] eqn:N; [|discriminate H]. destruct (par_op k ns) as [op|] eqn:Q; [|discriminate H]. apply ok_opt_ok in H.
    pose proof (IHe _ eq_refl) as Te. pose proof (op_typed op [te] t [ve] [] (par_typed _ _ _ _ _ _ P Q Te) ltac:(constructor; [exact Te|constructor])) as Z. rewrite H in Z. exact Z.
  - intros S c x y t _ _ _ _ _ _ v H. discriminate H.
  - intros S ts t f g a us _ _ _ _ _ v H. discriminate H.
  - intros S vs H. injection H as <-. constructor.
  - intros S e r t ts _ IH _ IHs vs H. cbn [map opt_list] in H. destruct (cval e) as [v|]; [|discriminate H]. destruct (opt_list (map cval r)) as [ws|]; [|discriminate H]. injection H as <-. constructor; auto.
Qed.
Lemma veqb_refl : forall t v, has_type v t -> value_eqb v v = true.
Proof. intros t v H. rewrite (value_eqb_leaves t v v H H). induction (flat_val v) as [|u l IH]; [reflexivity|]. cbn [leaves_eqb]. rewrite IH. destruct u; cbn [leaf_eqb]; rewrite ?Z.eqb_refl, ?eqb_reflx, ?Feqb_refl; reflexivity. Qed.

(** ** The identifiers of an expression; those inside slices *)
Definition idlist (f : sexp -> list rid) : list sexp -> list rid := fix go l := match l with [] => [] | e :: r => f e ++ go r end.
Fixpoint eids (e : sexp) : list rid :=
  match e with
  | SId _ x => [x]
  | SOp _ args => idlist eids args
  | SPar _ e cs => eids e ++ idlist eids cs
  | SCond c x y => eids c ++ eids x ++ eids y
  | SCall _ _ _ g a => idlist eids g ++ idlist eids a
  end.
Definition is_slice (k : pkind) : bool := match k with KSlice _ _ _ => true | _ => false end.
Fixpoint slids (e : sexp) : list rid :=
  match e with
  | SId _ _ => []
  | SOp _ args => idlist slids args
  | SPar k e cs => if is_slice k then eids e ++ idlist eids cs else slids e ++ idlist slids cs
  | SCond c x y => slids c ++ slids x ++ slids y
  | SCall _ _ _ g a => idlist slids g ++ idlist slids a
  end.
Lemma idlist_flat : forall f l, idlist f l = flat_map f l.
Proof. induction l as [|e l IH]; [reflexivity|]. cbn [idlist flat_map]. rewrite IH. reflexivity. Qed.
Lemma slids_eids : forall e, incl (slids e) (eids e).
Proof.
  assert (Q : forall l, Forall (fun e => incl (slids e) (eids e)) l -> incl (idlist slids l) (idlist eids l)) by (intros l H; rewrite !idlist_flat; induction H as [|e l E H IH]; [apply incl_refl|cbn [flat_map]; apply incl_app_app; assumption]).
  induction e as [t x|op args IH|k e cs IHe IHc|c x y IHc IHx IHy|ts t f g a IHg IHa] using sexp_ind'; cbn [slids eids].
  - intros y [].
  - apply Q. exact IH.
  - destruct (is_slice k); [apply incl_refl|apply incl_app_app; auto].
  - apply incl_app_app; [exact IHc|apply incl_app_app; assumption].
  - apply incl_app_app; apply Q; assumption.
Qed.
Lemma lit_ids : forall t v, has_type v t -> eids (lit t v) = [].
Proof.
  assert (Q : forall l, Forall (fun e => eids e = []) l -> idlist eids l = []) by (intros l H; induction H as [|e l E H IH]; [reflexivity|cbn [idlist]; rewrite E; exact IH]).
  induction t as [| |w|ty n IH|ts IH|ms IH|] using cty_ind'; intros v H; destruct v; try (cbn in H; contradiction); try reflexivity.
  - apply type_array in H as [_ H]. cbn [lit eids]. apply Q. rewrite Forall_forall in *. intros e I. apply in_map_iff in I as [v [<- I]]. apply IH, H, I.
  - apply type_tuple in H. cbn [lit eids]. apply Q. change (Forall (fun e => eids e = []) (lit_list l ts)). induction H as [|v t l ts T H IHl]; [constructor|]. inversion IH; subst. cbn [lit_list]. constructor; auto.
  - apply type_struct in H. cbn [lit eids]. apply Q. change (Forall (fun e => eids e = []) (lit_members l ms)). induction H as [|[k v] [k' t] l ms [_ T] H IHl]; [constructor|]. inversion IH; subst. cbn [lit_members]. cbn [fst snd] in *. constructor; auto.
Qed.
End TPropOk.
