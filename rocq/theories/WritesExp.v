(** Proofs about Writes.v: expressions whose conditions are evaluated in advance, and the new value of a variable after an assignment to a part of it. *)
From Coq Require Import String Ascii.
From Coq Require Import ZArith NArith List Bool Lia.
From Verif Require Import PField Interp Bits Zir CgProg UintOpt Str Abi Typed Flatten FlattenOps FlattenSim FlattenRun Writes Redefine WritesVal.
Import ListNotations.
Open Scope Z_scope.

Section WritesExp.
Context {PF : PrimeField}.

(** the result of an operator has its type; only some operators are partial *)
Definition may_fail (op : top) : bool := partial_op op || match op with OSel _ => true | _ => false end.
Lemma op_typed : forall op ts t vs lits, op_ty op ts t -> Forall2 has_type vs ts ->
  match sem_op op lits vs with Ok v => has_type v t | Failed => False | Stuck => may_fail op = true end.
Proof.
  intros op ts t vs lits Y T. destruct Y.
  - apply f2_nil in T as ->. exact I.
  - apply f2_nil in T as ->. exact I.
  - apply f2_nil in T as ->. split; [reflexivity|assumption].
  - apply f2_two in T as [u1 [u2 [-> [T1 T2]]]]. apply type_field in T1 as [a ->]. apply type_field in T2 as [b ->]. cbn [sem_op]. destruct o; cbn [sem_fop]; try exact I. destruct (Feqb b f0); [reflexivity|exact I].
  - apply f2_one in T as [u1 [-> T1]]. apply type_field in T1 as [a ->]. exact I.
  - apply f2_one in T as [u1 [-> T1]]. apply type_field in T1 as [a ->]. exact I.
  - apply f2_one in T as [u1 [-> T1]]. apply type_field in T1 as [a ->]. exact I.
  - apply f2_one in T as [u1 [-> T1]]. exact T1.
  - apply f2_two in T as [u1 [u2 [-> [T1 T2]]]]. apply type_field in T1 as [a ->]. apply type_field in T2 as [b ->]. cbn [sem_op]. destruct (existsb id lits || _); [exact I|reflexivity].
  - apply f2_two in T as [u1 [u2 [-> [T1 T2]]]]. apply type_field in T1 as [a ->]. apply type_field in T2 as [b ->]. cbn [sem_op]. destruct (existsb id lits || _); [exact I|reflexivity].
  - apply f2_two in T as [u1 [u2 [-> [T1 T2]]]]. apply type_uint in T1 as [a [-> _]]. apply type_uint in T2 as [b [-> _]]. exact I.
  - apply f2_two in T as [u1 [u2 [-> [T1 T2]]]]. apply type_uint in T1 as [a [-> _]]. apply type_uint in T2 as [b [-> _]]. exact I.
  - apply f2_two in T as [u1 [u2 [-> [T1 T2]]]]. cbn [sem_op]. destruct u1; exact I.
  - apply f2_two in T as [u1 [u2 [-> [T1 T2]]]]. apply type_bool in T1 as [a ->]. apply type_bool in T2 as [b ->]. exact I.
  - apply f2_one in T as [u1 [-> T1]]. apply type_bool in T1 as [a ->]. exact I.
  - apply f2_two in T as [u1 [u2 [-> [T1 T2]]]]. apply type_uint in T1 as [a [-> Ra]]. apply type_uint in T2 as [b [-> Rb]]. cbn [sem_op]. destruct (sem_uop o (uwn w) a b) as [x|] eqn:E; cbn [option_map of_opt].
    + split; [reflexivity|exact (uop_range o w a b x E Ra Rb)].
    + destruct o; cbn [sem_uop] in E; try discriminate E; reflexivity.
  - apply f2_one in T as [u1 [-> T1]]. apply type_uint in T1 as [a [-> Ra]]. cbn [sem_op]. split; [reflexivity|lia].
  - apply f2_one in T as [u1 [-> T1]]. apply type_uint in T1 as [a [-> Ra]]. cbn [sem_op]. split; [reflexivity|apply Z.mod_pos_bound, range_pow].
  - apply f2_one in T as [u1 [-> T1]]. apply type_uint in T1 as [a [-> Ra]]. cbn [sem_op]. split; [reflexivity|]. pose proof (Z.pow_pos_nonneg 2 (Z.of_nat k) ltac:(lia) ltac:(lia)) as Q. split; [apply Z.div_pos; lia|]. apply Z.le_lt_trans with a; [|lia]. apply Z.div_le_upper_bound; nia.
  - apply f2_one in T as [u1 [-> T1]]. apply type_uint in T1 as [a [-> Ra]]. cbn [sem_op]. split; [reflexivity|apply Z.mod_pos_bound, range_pow].
  - apply f2_two in T as [u1 [u2 [-> [T1 T2]]]]. apply type_arr in T1 as [l [-> [Ll Hl]]]. apply type_uint in T2 as [k [-> Rk]]. cbn [sem_op]. destruct (0 <=? k); [|reflexivity]. destruct (nth_error l (Z.to_nat k)) as [v|] eqn:N; [|reflexivity]. cbn [of_opt]. rewrite Forall_forall in Hl. apply Hl. exact (nth_error_In _ _ N).
  - apply f2_one in T as [u1 [-> T1]]. apply type_str in T1 as [l [-> Hl]]. match goal with X : exists a b, _ |- _ => destruct X as [a [b [Em N]]] end. destruct (member_ok m t a b l ms Hl Em N) as [v [p [c [M [U _]]]]]. cbn [sem_op]. rewrite M. exact U.
  - apply f2_one in T as [u1 [-> T1]]. apply type_tup in T1 as [l [-> Hl]]. match goal with X : nth_error _ _ = Some _ |- _ => rename X into N end. destruct (element_ok k ts t l Hl N) as [v [p [c [M [U _]]]]]. cbn [sem_op]. rewrite M. exact U.
  - match goal with X : arr_ty _ _ _ _ |- _ => destruct (spread_ok _ _ _ _ _ X T) as [l [E [L [Hl _]]]] end. cbn [sem_op]. rewrite E. cbn [option_map of_opt]. apply type_array. auto.
  - apply f2_one in T as [u1 [-> T1]]. apply type_arr in T1 as [l [-> [Ll Hl]]]. cbn [sem_op]. replace ((f <=? t)%nat && (t <=? length l)%nat) with true by (symmetry; apply andb_true_intro; split; apply Nat.leb_le; lia).
    apply type_array; split; [rewrite firstn_length, skipn_length; lia|]; rewrite Forall_forall in *; intros x X; apply Hl; rewrite <- (firstn_skipn f l); apply in_or_app; right; rewrite <- (firstn_skipn (t - f) (skipn f l)); apply in_or_app; left; exact X.
  - apply f2_one in T as [u1 [-> T1]]. cbn [sem_op]. apply type_array; split; [apply repeat_length|]; rewrite Forall_forall; intros x X; apply repeat_spec in X as ->; exact T1.
  - cbn [sem_op]. apply type_tuple. exact T.
  - cbn [sem_op]. match goal with X : length ks = _ |- _ => destruct (struct_combine _ _ _ X T) as [A _]; rewrite X end. rewrite <- (f2_len _ _ _ _ _ T), Nat.eqb_refl. apply type_struct. exact A.
Qed.

(** ** Evaluation with the conditions, unless they are variables or literals, taken from another environment *)
Definition ov_list (f : texp -> option value_) : list texp -> option (list value_) :=
  fix go l := match l with [] => Some [] | e :: r => match f e, go r with Some v, Some vs => Some (v :: vs) | _, _ => None end end.
Fixpoint tev2 (rc rho : tenv) (e : texp) : option value_ :=
  match e with
  | TId _ x => rho x
  | TOp op args => match ov_list (tev2 rc rho) args with Some vs => match sem_op op (map is_tlit args) vs with Ok v => Some v | _ => None end | None => None end
  | TCond c x y =>
      match (if simple_cond c then tev2 rc rho c else match teval rc c with Ok a => Some (snd a) | _ => None end), tev2 rc rho x, tev2 rc rho y with
      | Some (VBool k), Some a, Some b => Some (if k then a else b)
      | _, _, _ => None
      end
  | TBlock _ _ => None
  end.
Definition tevs2 (rc rho : tenv) := ov_list (tev2 rc rho).
Definition okenv (S : tctx) (rho : tenv) : Prop := forall y t, S y = Some t -> exists v, rho y = Some v /\ has_type v t.
(** [rho3] is [rho] except at x, where it is of the right type *)
Definition near (S : tctx) (x : Z) (rho rho3 : tenv) : Prop := okenv S rho3 /\ forall y, S y <> None -> y <> x -> rho3 y = rho y.
Lemma reads_false : forall x e, reads x e = false <-> ~ In x (tids e).
Proof.
  intros x e. unfold reads. split; intros H.
  - intros I. assert (existsb (Z.eqb x) (tids e) = true) by (apply existsb_exists; exists x; split; [exact I|apply Z.eqb_refl]). congruence.
  - destruct (existsb (Z.eqb x) (tids e)) eqn:E; [|reflexivity]. apply existsb_exists in E as [y [I E]]. apply Z.eqb_eq in E. subst y. contradiction.
Qed.
Lemma plain_ttys : forall args, forallb plain args = true <-> Forall (fun e => plain e = true) args.
Proof. intros args. rewrite forallb_forall, Forall_forall. reflexivity. Qed.

(** what a plain expression with a value gives in the environment [rho3] *)
Definition ev2_e (S : tctx) (e : texp) (t : cty) : Prop := plain e = true -> forall rho lg v, okenv S rho -> teval rho e = Ok (lg, v) -> lg = [] /\ has_type v t /\ tdefs e = [] /\
  (forall rho3, (forall y, S y <> None -> rho3 y = rho y) -> tev2 rho rho3 e = Some v) /\
  (forall x rho3, near S x rho rho3 -> steady x e = true -> exists v3, tev2 rho rho3 e = Some v3 /\ has_type v3 t) /\
  (forall x rho3, near S x rho rho3 -> reads x e = false -> tev2 rho rho3 e = Some v).
Definition ev2_es (S : tctx) (es : list texp) (ts : list cty) : Prop := forallb plain es = true -> forall rho lg vs, okenv S rho -> tevals rho es = Ok (lg, vs) -> lg = [] /\ Forall2 has_type vs ts /\ tdefss es = [] /\
  (forall rho3, (forall y, S y <> None -> rho3 y = rho y) -> tevs2 rho rho3 es = Some vs) /\
  (forall x rho3, near S x rho rho3 -> forallb (steady x) es = true -> exists vs3, tevs2 rho rho3 es = Some vs3 /\ Forall2 has_type vs3 ts /\ Forall2 (fun e p => reads x e = false -> fst p = snd p) es (combine vs vs3)) /\
  (forall x rho3, near S x rho rho3 -> forallb (fun e => negb (reads x e)) es = true -> tevs2 rho rho3 es = Some vs).
Lemma reads_app : forall x a b, existsb (Z.eqb x) (a ++ b) = existsb (Z.eqb x) a || existsb (Z.eqb x) b.
Proof. intros. apply existsb_app. Qed.
Lemma reads_op : forall x op args, reads x (TOp op args) = false -> forallb (fun e => negb (reads x e)) args = true.
Proof.
  intros x op args H. unfold reads in H. cbn [tids] in H. induction args as [|e r IH]; [reflexivity|]. cbn [tdefs_list] in H. rewrite reads_app in H. apply orb_false_elim in H as [H1 H2]. cbn [forallb]. unfold reads at 1. rewrite H1. apply IH. exact H2.
Qed.
Lemma u_tev2_op : forall rc rho op args, tev2 rc rho (TOp op args) = match tevs2 rc rho args with Some vs => match sem_op op (map is_tlit args) vs with Ok v => Some v | _ => None end | None => None end.
Proof. reflexivity. Qed.
Lemma u_tevs2 : forall rc rho e r, tevs2 rc rho (e :: r) = match tev2 rc rho e, tevs2 rc rho r with Some v, Some vs => Some (v :: vs) | _, _ => None end.
Proof. reflexivity. Qed.
Lemma simple_steady : forall x c, simple_cond c = true -> steady x c = true.
Proof. intros x [t y|[] [|]|c a b|ss e] H; try discriminate H; reflexivity. Qed.
Lemma simple_redef : forall c n n1 b c1, redef n c = (n1, b, c1) -> simple_cond c1 = simple_cond c.
Proof.
  intros [t y|op args|c a b'|ss e] n n1 b c1 H.
  - injection H as <- <- <-. reflexivity.
  - rewrite u_redef_op in H. destruct args as [|e r]; [injection H as <- <- <-; reflexivity|]. rewrite u_redef_list in H. destruct (redef n e) as [[n2 b2] e2]. destruct (redefs n2 r) as [[n3 b3] r3]. injection H as <- <- <-. destruct op; reflexivity.
  - cbn [redef] in H. destruct (redef n c) as [[n2 b2] e2]. destruct (if simple_cond e2 then _ else _) as [[n3 b3] e3]. destruct (redef n3 a) as [[n4 b4] e4]. destruct (redef n4 b') as [[n5 b5] e5]. injection H as <- <- <-. reflexivity.
  - rewrite u_redef_block in H. destruct (redef_stmts n ss) as [n2 b2]. destruct (redef n2 e) as [[n3 b3] e3]. injection H as <- <- <-. reflexivity.
Qed.
Theorem ev2_ok : (forall S e t, tty S e t -> ev2_e S e t) /\ (forall S es ts, ttys S es ts -> ev2_es S es ts) /\ (forall S s S1, tsty S s S1 -> True) /\ (forall S ss S1, tstys S ss S1 -> True).
Proof.
  apply typed_ind; try (intros; exact I).
  - intros S t x E _ rho lg v Ok1 Ev. cbn [teval] in Ev. destruct (rho x) as [u|] eqn:Ex; [|discriminate Ev]. injection Ev as <- <-. split; [reflexivity|]. destruct (Ok1 x t E) as [u' [E1 E2]]. rewrite Ex in E1. injection E1 as <-. split; [exact E2|]. split; [reflexivity|]. cbn [tev2]. split; [|split].
    + intros rho3 H. rewrite H by congruence. exact Ex.
    + intros y rho3 [N1 _] _. exact (N1 x t E).
    + intros y rho3 [_ N2] R. apply reads_false in R. rewrite N2; [exact Ex|congruence|]. intros ->. apply R. left. reflexivity.
  - intros S op args ts t _ IH Y P rho lg v Ok1 Ev. cbn [plain] in P. rewrite u_teval_op in Ev. apply ok_inv in Ev as [[la vs] [Ea Ev]]. cbn [fst snd] in Ev. apply ok_inv in Ev as [v' [Eo Ev]]. injection Ev as <- <-. destruct (IH P _ _ _ Ok1 Ea) as [-> [Ts [D [H1 [H2 H3]]]]]. split; [reflexivity|].
    pose proof (op_typed op ts t vs (map is_tlit args) Y Ts) as Q. rewrite Eo in Q. split; [exact Q|]. split; [exact D|]. rewrite ?u_tev2_op. split; [|split].
    + intros rho3 H. rewrite u_tev2_op, (H1 rho3 H), Eo. reflexivity.
    + intros x rho3 N St. cbn [steady] in St. apply andb_prop in St as [St1 St2]. destruct (H2 x rho3 N St1) as [vs3 [E3 [T3 A3]]]. rewrite u_tev2_op, E3. pose proof (op_typed op ts t vs3 (map is_tlit args) Y T3) as Q3. destruct (sem_op op (map is_tlit args) vs3) as [v3| |] eqn:Eo3; [exists v3; split; [reflexivity|exact Q3]|contradiction|].
      exfalso. unfold may_fail in Q3. destruct (partial_op op) eqn:Po.
      * assert (A : forallb (fun a => negb (reads x a)) args = true) by (destruct op; try discriminate Po; exact St2). rewrite (H3 x rho3 N A) in E3. injection E3 as <-. congruence.
      * destruct op; try discriminate Q3. inversion Y; subst. apply f2_two in Ts as [a1 [i1 [-> [Ta1 Ti1]]]]. apply f2_two in T3 as [a3 [i3 [-> [Ta3 Ti3]]]]. cbn [combine] in A3. inversion A3 as [|ea p1 ar ? _ A4]; subst. inversion A4 as [|ei p2 ar2 ? A5 A6]; subst. inversion A6; subst.
        cbn [fst snd] in A5. apply negb_true_iff in St2. specialize (A5 St2). subst i3. apply type_arr in Ta1 as [l1 [-> [L1 _]]]. apply type_arr in Ta3 as [l3 [-> [L3 _]]]. apply type_uint in Ti1 as [k [-> _]]. cbn [sem_op] in Eo, Eo3. destruct (0 <=? k); [|discriminate Eo].
        destruct (nth_error l1 (Z.to_nat k)) eqn:N1; [|discriminate Eo]. destruct (nth_error l3 (Z.to_nat k)) eqn:N3; [discriminate Eo3|]. apply nth_error_None in N3. assert (Z.to_nat k < length l1)%nat by (apply nth_error_Some; congruence). lia.
    + intros x rho3 N R. rewrite u_tev2_op, (H3 x rho3 N (reads_op _ _ _ R)), Eo. reflexivity.
  - intros S c a b t _ IHc _ IHa _ IHb P rho lg v Ok1 Ev. cbn [plain] in P. apply andb_prop in P as [P P3]. apply andb_prop in P as [P1 P2]. cbn [teval] in Ev. apply ok_inv in Ev as [[lc vc] [Ec Ev]]. apply ok_inv in Ev as [[lx vx] [Ex Ev]]. apply ok_inv in Ev as [[ly vy] [Ey Ev]]. cbn [fst snd] in Ev.
    destruct (IHc P1 _ _ _ Ok1 Ec) as [-> [Tc [Dc [A1 [A2 A3]]]]]. destruct (IHa P2 _ _ _ Ok1 Ex) as [-> [Tx [Dx [B1 [B2 B3]]]]]. destruct (IHb P3 _ _ _ Ok1 Ey) as [-> [Ty [Dy [C1 [C2 C3]]]]]. destruct vc as [| |k| | |]; try discriminate Ev. injection Ev as <- <-. split; [reflexivity|]. split; [destruct k; assumption|]. split; [cbn [tdefs]; rewrite Dc, Dx, Dy; reflexivity|]. cbn [tev2]. rewrite Ec. split; [|split].
    + intros rho3 H. rewrite (A1 rho3 H), (B1 rho3 H), (C1 rho3 H). destruct (simple_cond c); reflexivity.
    + intros x rho3 N St. cbn [steady] in St. apply andb_prop in St as [St1 St2]. destruct (B2 x rho3 N St1) as [v3 [E3 T3]]. destruct (C2 x rho3 N St2) as [v4 [E4 T4]]. rewrite E3, E4.
      destruct (simple_cond c) eqn:Si; [|exists (if k then v3 else v4); split; [reflexivity|destruct k; assumption]]. destruct (A2 x rho3 N (simple_steady x c Si)) as [u [Eu Tu]]. rewrite Eu. apply type_bool in Tu as [k3 ->]. exists (if k3 then v3 else v4). split; [reflexivity|destruct k3; assumption].
    + intros x rho3 N R. unfold reads in R. cbn [tids] in R. rewrite !reads_app in R. apply orb_false_elim in R as [R1 R2]. apply orb_false_elim in R2 as [R2 R3]. rewrite (A3 x rho3 N R1), (B3 x rho3 N R2), (C3 x rho3 N R3). destruct (simple_cond c); reflexivity.
  - intros S S' ss e t _ _ _ _ P. discriminate P.
  - intros S _ rho lg vs Ok1 Ev. injection Ev as <- <-. split; [reflexivity|]. split; [constructor|]. split; [reflexivity|]. split; [reflexivity|]. split; [|reflexivity]. intros x rho3 N _. exists []. split; [reflexivity|]. split; constructor.
  - intros S e r t ts _ IHe _ IHr P rho lg vs Ok1 Ev. cbn [forallb] in P. apply andb_prop in P as [P1 P2]. rewrite u_tevals in Ev. apply ok_inv in Ev as [[le ve] [Ee Ev]]. apply ok_inv in Ev as [[lr vr] [Er Ev]]. cbn [fst snd] in Ev. injection Ev as <- <-.
    destruct (IHe P1 _ _ _ Ok1 Ee) as [-> [Te [De [A1 [A2 A3]]]]]. destruct (IHr P2 _ _ _ Ok1 Er) as [-> [Tr [Dr [B1 [B2 B3]]]]]. split; [reflexivity|]. split; [constructor; assumption|]. split; [rewrite u_tdefss, De, Dr; reflexivity|]. split; [|split].
    + intros rho3 H. rewrite u_tevs2, (A1 rho3 H), (B1 rho3 H). reflexivity.
    + intros x rho3 N St. cbn [forallb] in St. apply andb_prop in St as [St1 St2]. destruct (A2 x rho3 N St1) as [v3 [E3 T3]]. destruct (B2 x rho3 N St2) as [vs3 [E4 [T4 T5]]]. rewrite u_tevs2, E3, E4. exists (v3 :: vs3). split; [reflexivity|]. split; [constructor; assumption|]. cbn [combine]. constructor; [|exact T5]. cbn [fst snd]. intros R. rewrite (A3 x rho3 N R) in E3. congruence.
    + intros x rho3 N R. cbn [forallb] in R. apply andb_prop in R as [R1 R2]. apply negb_true_iff in R1. rewrite u_tevs2, (A3 x rho3 N R1), (B3 x rho3 N R2). reflexivity.
Qed.

(** ** Redefinition of a plain expression *)
Definition rdp_e (S : tctx) (e : texp) (t : cty) : Prop := nnS S -> plain e = true -> forall n n' b e', redef n e = (n', b, e') -> (n <= n')%nat /\ plain e' = true /\
  forall rho lg v, okenv S rho -> teval rho e = Ok (lg, v) -> forall rho1, same rho1 rho -> exists rho2, texecs rho1 b = Ok ([], rho2) /\ (forall y, ~ In y (cids n n') -> rho2 y = rho1 y) /\
    forall rho3, (forall y, In y (cids n n') -> rho3 y = rho2 y) -> forall v3, tev2 rho rho3 e = Some v3 -> teval rho3 e' = Ok ([], v3).
Definition rdp_es (S : tctx) (es : list texp) (ts : list cty) : Prop := nnS S -> forallb plain es = true -> forall n n' b es', redefs n es = (n', b, es') -> (n <= n')%nat /\ forallb plain es' = true /\ map is_tlit es' = map is_tlit es /\
  forall rho lg v, okenv S rho -> tevals rho es = Ok (lg, v) -> forall rho1, same rho1 rho -> exists rho2, texecs rho1 b = Ok ([], rho2) /\ (forall y, ~ In y (cids n n') -> rho2 y = rho1 y) /\
    forall rho3, (forall y, In y (cids n n') -> rho3 y = rho2 y) -> forall vs3, tevs2 rho rho3 es = Some vs3 -> tevals rho3 es' = Ok ([], vs3).
Theorem redef_plain : (forall S e t, tty S e t -> rdp_e S e t) /\ (forall S es ts, ttys S es ts -> rdp_es S es ts) /\ (forall S s S1, tsty S s S1 -> True) /\ (forall S ss S1, tstys S ss S1 -> True).
Proof.
  apply typed_ind; try (intros; exact I).
  - intros S t x E _ _ n n' b e' H. cbn [redef] in H. injection H as <- <- <-. split; [lia|]. split; [reflexivity|]. intros rho lg v _ _ rho1 _. exists rho1. split; [reflexivity|]. split; [reflexivity|]. intros rho3 _ v3 V. cbn [tev2] in V. cbn [teval]. rewrite V. reflexivity.
  - intros S op args ts t _ IH Y NS P n n' b e' H. rewrite u_redef_op in H. destruct (redefs n args) as [[n1 b1] args'] eqn:Er. injection H as <- <- <-. destruct (IH NS P _ _ _ _ Er) as [L [P' [Li V]]]. split; [exact L|]. split; [exact P'|].
    intros rho lg v Ok1 Ev rho1 Sa. rewrite u_teval_op in Ev. apply ok_inv in Ev as [[la vs] [Ea Ev]]. destruct (V _ _ _ Ok1 Ea _ Sa) as [rho2 [X1 [X2 X3]]]. exists rho2. split; [exact X1|]. split; [exact X2|]. intros rho3 C v3 E3. rewrite u_tev2_op in E3. destruct (tevs2 rho rho3 args) as [vs3|] eqn:E4; [|discriminate E3]. destruct (sem_op op (map is_tlit args) vs3) as [w| |] eqn:Eo; try discriminate E3. injection E3 as <-.
    rewrite u_teval_op, (X3 rho3 C vs3 E4). cbn [obnd fst snd]. rewrite Li, Eo. reflexivity.
  - intros S c x y t Yc IHc _ IHx _ IHy NS P n n' b e' H. cbn [plain] in P. apply andb_prop in P as [P P3]. apply andb_prop in P as [P1 P2]. cbn [redef] in H. destruct (redef n c) as [[n1 b1] c1] eqn:Ec. destruct (IHc NS P1 _ _ _ _ Ec) as [L1 [Q1 V1]]. clear IHc.
    destruct (if simple_cond c1 then (n1, [], c1) else (Datatypes.S n1, [TDef (cid n1) CBool c1], TId CBool (cid n1))) as [[n2 bc] c2] eqn:Es.
    assert (C2 : (n1 <= n2)%nat /\ plain c2 = true /\ forall rho lg k, okenv S rho -> teval rho c = Ok (lg, VBool k) -> forall rho1, same rho1 rho -> exists rho2, texecs rho1 (b1 ++ bc) = Ok ([], rho2) /\ (forall y, ~ In y (cids n n2) -> rho2 y = rho1 y) /\
        forall rho3, (forall y, In y (cids n n2) -> rho3 y = rho2 y) -> forall k3, (if simple_cond c then tev2 rho rho3 c else match teval rho c with Ok a => Some (snd a) | _ => None end) = Some k3 -> teval rho3 c2 = Ok ([], k3)).
    { rewrite <- (simple_redef _ _ _ _ _ Ec). destruct (simple_cond c1) eqn:Si; injection Es as <- <- <-.
      - rewrite app_nil_r. split; [lia|]. split; [exact Q1|]. intros rho lg k Ok1 Ev rho1 Sa. exact (V1 _ _ _ Ok1 Ev _ Sa).
      - assert (Sp : cids n (Datatypes.S n1) = cids n n1 ++ [cid n1]) by (rewrite (cids_split n n1 (Datatypes.S n1)) by lia; rewrite cids_one; reflexivity). split; [lia|]. split; [reflexivity|]. intros rho lg k Ok1 Ev rho1 Sa. destruct (V1 _ _ _ Ok1 Ev _ Sa) as [rho2 [X1 [X2 X3]]].
        assert (Sc : same rho2 rho) by (apply (same_trans _ rho1); [apply (same_out n n1); exact X2|exact Sa]). destruct (proj1 ev2_ok S c CBool Yc P1 _ _ _ Ok1 Ev) as [_ [_ [_ [H1 _]]]]. specialize (X3 rho2 (fun _ _ => eq_refl) (VBool k) (H1 rho2 (fun z Z => Sc z (NS z Z)))).
        exists (tupd rho2 (cid n1) (VBool k)). split; [rewrite texecs_app, X1; cbn [obnd snd fst]; rewrite texecs_one, u_edef, X3; reflexivity|]. split.
        + intros z N. rewrite Sp in N. unfold tupd. destruct (Z.eqb_spec z (cid n1)) as [->|D]; [destruct N; apply in_or_app; right; left; reflexivity|]. apply X2. intros J. apply N. apply in_or_app. left. exact J.
        + intros rho3 Sb k3 K. rewrite Ev in K. injection K as <-. cbn [teval]. rewrite (Sb (cid n1)) by (rewrite Sp; apply in_or_app; right; left; reflexivity). unfold tupd. rewrite Z.eqb_refl. reflexivity. }
    destruct C2 as [L2 [Q2 V2]]. destruct (redef n2 x) as [[n3 b2] x1] eqn:Ex. destruct (IHx NS P2 _ _ _ _ Ex) as [L3 [Q3 V3]]. clear IHx. destruct (redef n3 y) as [[n4 b3] y1] eqn:Ey. destruct (IHy NS P3 _ _ _ _ Ey) as [L4 [Q4 V4]]. clear IHy. injection H as <- <- <-. rewrite app_assoc. set (bb := b1 ++ bc) in *. clearbody bb.
    split; [lia|]. split; [cbn [plain]; rewrite Q2, Q3, Q4; reflexivity|].
    intros rho lg v Ok1 Ev rho1 Sa. cbn [teval] in Ev. apply ok_inv in Ev as [[lc vc] [Ec' Ev]]. apply ok_inv in Ev as [[lx vx] [Ex' Ev]]. apply ok_inv in Ev as [[ly vy] [Ey' Ev]]. cbn [fst snd] in Ev. destruct vc as [| |k| | |]; try discriminate Ev. clear Ev.
    destruct (V2 _ _ _ Ok1 Ec' _ Sa) as [r1 [A1 [A2 A3]]]. pose proof (same_trans _ _ _ (same_out _ _ _ _ A2) Sa) as S1. destruct (V3 _ _ _ Ok1 Ex' _ S1) as [r2 [B1 [B2 B3]]]. pose proof (same_trans _ _ _ (same_out _ _ _ _ B2) S1) as S2. destruct (V4 _ _ _ Ok1 Ey' _ S2) as [r3 [C1 [C2 C3]]].
    exists r3. split; [rewrite texecs_app, A1; cbn [obnd fst snd]; rewrite texecs_app, B1; cbn [obnd fst snd]; rewrite C1; reflexivity|]. split.
    * intros z N. rewrite C2, B2, A2; [reflexivity| | |]; intros I; apply N; [apply (cids_part n n2 n4); [lia|left; exact I]|apply (cids_part n n2 n4); [lia|right; apply (cids_part n2 n3 n4); [lia|left; exact I]]|apply (cids_part n n2 n4); [lia|right; apply (cids_part n2 n3 n4); [lia|right; exact I]]].
    * intros rho3 Sc v3 E3. cbn [tev2] in E3. destruct (if simple_cond c then _ else _) as [vc|] eqn:Evc; [|discriminate E3]. destruct vc as [| |k3| | |]; try discriminate E3. destruct (tev2 rho rho3 x) as [wx|] eqn:Wx; [|discriminate E3]. destruct (tev2 rho rho3 y) as [wy|] eqn:Wy; [|discriminate E3]. injection E3 as <-.
      pose proof (fun P => A3 rho3 P (VBool k3) Evc) as A4. pose proof (fun P => B3 rho3 P wx Wx) as B4. pose proof (fun P => C3 rho3 P wy Wy) as C4. cbn [teval]. rewrite A4, B4, C4; [reflexivity| | |].
      { intros z I. apply Sc. apply (cids_part n n2 n4); [lia|right; apply (cids_part n2 n3 n4); [lia|right; exact I]]. }
      { intros z I. rewrite Sc by (apply (cids_part n n2 n4); [lia|right; apply (cids_part n2 n3 n4); [lia|left; exact I]]). apply C2. intros J. exact (cids_apart _ _ _ _ I J). }
      { intros z I. rewrite Sc by (apply (cids_part n n2 n4); [lia|left; exact I]). rewrite C2, B2; [reflexivity| |]; intros J; [exact (cids_apart _ _ _ _ I J)|]. apply (cids_apart n n2 n4 z I). apply (cids_part n2 n3 n4); [lia|right; exact J]. }
  - intros S S' ss e t _ _ _ _ NS P. discriminate P.
  - intros S NS _ n n' b es' H. injection H as <- <- <-. split; [lia|]. split; [reflexivity|]. split; [reflexivity|]. intros rho lg v _ _ rho1 _. exists rho1. split; [reflexivity|]. split; [reflexivity|]. intros rho3 _ vs3 V. injection V as <-. reflexivity.
  - intros S e r t ts _ IHe _ IHr NS P n n' b es' H. cbn [forallb] in P. apply andb_prop in P as [P1 P2]. rewrite u_redef_list in H. destruct (redef n e) as [[n1 b1] e1] eqn:E1. destruct (IHe NS P1 _ _ _ _ E1) as [L1 [Q1 V1]]. destruct (redefs n1 r) as [[n2 b2] r1] eqn:E2. destruct (IHr NS P2 _ _ _ _ E2) as [L2 [Q2 [Li V2]]]. injection H as <- <- <-.
    split; [lia|]. split; [cbn [forallb]; rewrite Q1, Q2; reflexivity|]. split; [cbn [map]; rewrite (redef_lit _ _ _ _ _ E1), Li; reflexivity|].
    intros rho lg v Ok1 Ev rho1 Sa. rewrite u_tevals in Ev. apply ok_inv in Ev as [[le ve] [Ee Ev]]. apply ok_inv in Ev as [[lr vr] [Er Ev]]. clear Ev.
    destruct (V1 _ _ _ Ok1 Ee _ Sa) as [r2 [A1 [A2 A3]]]. pose proof (same_trans _ _ _ (same_out _ _ _ _ A2) Sa) as S1. destruct (V2 _ _ _ Ok1 Er _ S1) as [r3 [B1 [B2 B3]]]. exists r3. split; [rewrite texecs_app, A1; cbn [obnd fst snd]; rewrite B1; reflexivity|]. split.
    + intros z N. rewrite B2, A2; [reflexivity| |]; intros I; apply N; apply (cids_part n n1 n2); [lia|left; exact I|lia|right; exact I].
    + intros rho3 Sc vs3 E3. rewrite u_tevs2 in E3. destruct (tev2 rho rho3 e) as [w|] eqn:W1; [|discriminate E3]. destruct (tevs2 rho rho3 r) as [ws|] eqn:W2; [|discriminate E3]. injection E3 as <-. pose proof (fun P => A3 rho3 P w W1) as A4. pose proof (fun P => B3 rho3 P ws W2) as B4. rewrite u_tevals, A4. cbn [obnd fst snd]. rewrite B4; [reflexivity|..].
      { intros z I. apply Sc. apply (cids_part n n1 n2); [lia|right; exact I]. }
      { intros z I. rewrite Sc by (apply (cids_part n n1 n2); [lia|left; exact I]). apply B2. intros J. exact (cids_apart _ _ _ _ I J). }
Qed.
End WritesExp.
