(** Proofs about TProp.v: the rules of the operators. *)
From Coq Require Import String Ascii.
From Coq Require Import ZArith NArith List Bool Lia Ring Field.
From Verif Require Import PField Interp Bits Zir CgProg UintOpt Str Abi Typed Flatten FlattenOps FlattenSim FlattenRun Writes Redefine WritesVal WritesExp ZProp ZPropStmt Src SrcTy TProp TPropOk TPropArr.
Import ListNotations.
Open Scope Z_scope.

Section TPropOps.
Context {PF : PrimeField}.
Add Field Ff_tprop : F_field_th.

Lemma fnum_ok : forall e m, fnum e = Some m -> e = fl m.
Proof. intros [t x|op [|a l]|k e cs|c x y|ts t f g a] m H; try discriminate H; destruct op; try discriminate H. injection H as <-. reflexivity. Qed.
Lemma bnum_ok : forall e m, bnum e = Some m -> e = bl m.
Proof. intros [t x|op [|a l]|k e cs|c x y|ts t f g a] m H; try discriminate H; destruct op; try discriminate H. injection H as <-. reflexivity. Qed.
Lemma unum_ok : forall e m, unum e = Some m -> exists w, e = ul w m.
Proof. intros [t x|op [|a l]|k e cs|c x y|ts t f g a] m H; try discriminate H; destruct op; try discriminate H. injection H as <-. exists w. reflexivity. Qed.
Lemma x0 : forall S op t, xty S (SOp op []) t -> op_ty op [] t.
Proof. intros S op t H. inversion H as [|S0 o args us t0 X1 Y| | |]; subst. inversion X1; subst. exact Y. Qed.
Lemma x1 : forall S op a t, xty S (SOp op [a]) t -> exists u, xty S a u /\ op_ty op [u] t.
Proof. intros S op a t H. inversion H as [|S0 o args us t0 X1 Y| | |]; subst. inversion X1 as [|S1 e r ta tr Xa Xr]; subst. inversion Xr; subst. exists ta. auto. Qed.
Lemma x2 : forall S op a b t, xty S (SOp op [a; b]) t -> exists u w, xty S a u /\ xty S b w /\ op_ty op [u; w] t.
Proof. intros S op a b t H. inversion H as [|S0 o args us t0 X1 Y| | |]; subst. inversion X1 as [|S1 e r ta tr Xa Xr]; subst. inversion Xr as [|S2 e2 r2 tb tr2 Xb Xr2]; subst. inversion Xr2; subst. exists ta, tb. auto. Qed.
Lemma e1 : forall call rho op a lg v, seval call rho (SOp op [a]) = Ok (lg, v) -> exists va, seval call rho a = Ok (lg, va) /\ sem_op op [is_slit a] [va] = Ok v.
Proof. intros call rho op a lg v H. rewrite u_seval_op, u_el_cons in H. apply ok_inv in H as [[la vs] [Ea H]]. apply ok_inv in Ea as [[l1 va] [E1 Ea]]. cbn [sevals eval_list obnd fst snd] in Ea. injection Ea as <- <-. cbn [fst snd map] in H. apply ok_inv in H as [u [Eu H]]. injection H as <- <-. exists va. rewrite app_nil_r. auto. Qed.
Lemma e2 : forall call rho op a b lg v, seval call rho (SOp op [a; b]) = Ok (lg, v) -> exists la va lb vb, seval call rho a = Ok (la, va) /\ seval call rho b = Ok (lb, vb) /\ sem_op op [is_slit a; is_slit b] [va; vb] = Ok v /\ lg = la ++ lb.
Proof. intros call rho op a b lg v H. rewrite u_seval_op, u_el_cons in H. apply ok_inv in H as [[la vs] [Ea H]]. apply ok_inv in Ea as [[l1 va] [E1 Ea]]. rewrite u_el_cons in Ea. apply ok_inv in Ea as [[l2 vb] [E2 Ea]]. apply ok_inv in E2 as [[l3 vc] [E3 E2]]. cbn [sevals eval_list obnd fst snd] in *. injection E2 as <- <-. injection Ea as <- <-. apply ok_inv in H as [u [Eu H]]. injection H as <- <-. exists l1, va, l3, vc. rewrite app_nil_r. auto. Qed.
Lemma e2_intro : forall call rho op a b la va lb vb v, seval call rho a = Ok (la, va) -> seval call rho b = Ok (lb, vb) -> sem_op op [is_slit a; is_slit b] [va; vb] = Ok v -> seval call rho (SOp op [a; b]) = Ok (la ++ lb, v).
Proof. intros call rho op a b la va lb vb v A B C. rewrite u_seval_op, !u_el_cons, A. cbn [obnd fst snd]. rewrite B. cbn [sevals eval_list obnd fst snd map]. rewrite C. cbn [obnd]. rewrite app_nil_r. reflexivity. Qed.
Lemma ids1 : forall op a, eids (SOp op [a]) = eids a /\ slids (SOp op [a]) = slids a.
Proof. intros op a. cbn [eids slids idlist]. rewrite !app_nil_r. auto. Qed.
Lemma ids2 : forall op a b, eids (SOp op [a; b]) = eids a ++ eids b /\ slids (SOp op [a; b]) = slids a ++ slids b.
Proof. intros op a b. cbn [eids slids idlist]. rewrite !app_nil_r. auto. Qed.
(** a literal with the value of the expression *)
Lemma to_lit : forall S e op t u, op_ty op [] t -> sem_op op [] [] = Ok u -> (forall call rho lg v, call_ok call -> rok S rho -> seval call rho e = Ok (lg, v) -> v = u) -> better S e (SOp op []) t.
Proof.
  intros S e op t u Y E H. split; [apply XOp with []; [constructor|exact Y]|]. split; [split; intros x []|]. intros call rho K R lg v Ev. rewrite (H call rho lg v K R Ev). exists []. split; [|apply sub_empty]. cbn [seval eval_list obnd fst snd map]. rewrite E. reflexivity.
Qed.
Lemma to_fst : forall S op a b t, xty S a t -> (forall call rho la va lb vb v, call_ok call -> rok S rho -> seval call rho a = Ok (la, va) -> seval call rho b = Ok (lb, vb) -> sem_op op [is_slit a; is_slit b] [va; vb] = Ok v -> v = va) -> better S (SOp op [a; b]) a t.
Proof.
  intros S op a b t X H. destruct (ids2 op a b) as [I J]. split; [exact X|]. split; [unfold fewer; rewrite I, J; split; apply incl_appl, incl_refl|]. intros call rho K R lg v E. apply e2 in E as [la [va [lb [vb [Ea [Eb [Ev ->]]]]]]]. rewrite (H call rho la va lb vb v K R Ea Eb Ev). exists la. split; [exact Ea|]. apply sublog_ext, sublog_refl.
Qed.
Lemma to_snd : forall S op a b t, xty S b t -> (forall call rho la va lb vb v, call_ok call -> rok S rho -> seval call rho a = Ok (la, va) -> seval call rho b = Ok (lb, vb) -> sem_op op [is_slit a; is_slit b] [va; vb] = Ok v -> v = vb) -> better S (SOp op [a; b]) b t.
Proof.
  intros S op a b t X H. destruct (ids2 op a b) as [I J]. split; [exact X|]. split; [unfold fewer; rewrite I, J; split; apply incl_appr, incl_refl|]. intros call rho K R lg v E. apply e2 in E as [la [va [lb [vb [Ea [Eb [Ev ->]]]]]]]. rewrite (H call rho la va lb vb v K R Ea Eb Ev). exists lb. split; [exact Eb|]. apply sub_pre, sublog_refl.
Qed.
Lemma to_swap : forall S op w n b t, xty S (SOp op [b; ul w n]) t -> (forall la lb va vb v, sem_op op la [va; vb] = Ok v -> sem_op op lb [vb; va] = Ok v) -> better S (SOp op [ul w n; b]) (SOp op [b; ul w n]) t.
Proof.
  intros S op w n b t X H. destruct (ids2 op (ul w n) b) as [I J]. destruct (ids2 op b (ul w n)) as [I' J']. split; [exact X|]. split; [unfold fewer; rewrite I, J, I', J'; cbn [eids slids ul idlist app]; rewrite !app_nil_r; split; apply incl_refl|]. intros call rho K R lg v E. apply e2 in E as [la [va [lb [vb [Ea [Eb [Ev ->]]]]]]].
  exists (lb ++ la). split; [exact (e2_intro _ _ _ _ _ _ _ _ _ _ Eb Ea (H _ _ _ _ _ Ev))|]. cbn [seval ul eval_list obnd fst snd map sem_op] in Ea. injection Ea as <- _. rewrite app_nil_r. apply sublog_refl.
Qed.
Lemma ev_f : forall call rho x lg v, seval call rho (fl x) = Ok (lg, v) -> v = VField x.
Proof. intros call rho x lg v H. injection H as _ <-. reflexivity. Qed.
Lemma ev_b : forall call rho x lg v, seval call rho (bl x) = Ok (lg, v) -> v = VBool x.
Proof. intros call rho x lg v H. injection H as _ <-. reflexivity. Qed.
Lemma ev_u : forall call rho w x lg v, seval call rho (ul w x) = Ok (lg, v) -> v = VUint w x.
Proof. intros call rho w x lg v H. injection H as _ <-. reflexivity. Qed.
Lemma ul_ty : forall S w n t, xty S (ul w n) t -> t = CUint w /\ 0 <= n < 2 ^ bits_of w.
Proof. intros S w n t H. apply x0 in H. inversion H; subst. auto. Qed.
Lemma uwn_bits : forall w, Z.of_nat (uwn w) = bits_of w.
Proof. intros []; reflexivity. Qed.
Lemma uop_range : forall o w a b r, 0 <= a < 2 ^ bits_of w -> 0 <= b < 2 ^ bits_of w -> sem_uop o (uwn w) a b = Some r -> 0 <= r < 2 ^ bits_of w.
Proof.
  intros o w a b r Ha Hb E. pose proof (op_typed (OUBin w o) [CUint w; CUint w] (CUint w) [VUint w a; VUint w b] [] (YUBin w o) ltac:(constructor; [split; [reflexivity|exact Ha]|constructor; [split; [reflexivity|exact Hb]|constructor]])) as Q. cbn [sem_op] in Q. rewrite E in Q. cbn [option_map of_opt] in Q. exact (proj2 Q).
Qed.
Lemma usimp_ok : forall S w o a b e', xty S a (CUint w) -> xty S b (CUint w) -> usimp w o a b = Some e' -> better S (SOp (OUBin w o) [a; b]) e' (CUint w).
Proof.
  intros S w o a b e' Xa Xb E.
  assert (D : better S (SOp (OUBin w o) [a; b]) (SOp (OUBin w o) [a; b]) (CUint w)) by (apply better_refl; apply XOp with [CUint w; CUint w]; [repeat constructor; assumption|constructor]).
  assert (V : forall call rho e lg v, call_ok call -> rok S rho -> xty S e (CUint w) -> seval call rho e = Ok (lg, v) -> exists n, v = VUint w n /\ 0 <= n < 2 ^ bits_of w) by (intros call rho e lg v K R X Ev; exact (type_uint _ _ (proj1 (eval_typed call K) _ _ _ X _ _ _ R Ev))).
  assert (P0 : 0 < 2 ^ bits_of w) by (destruct w; reflexivity). assert (P1 : 1 < 2 ^ bits_of w) by (destruct w; reflexivity).
  assert (DD : Some (SOp (OUBin w o) [a; b]) = Some e' -> better S (SOp (OUBin w o) [a; b]) e' (CUint w)) by (intros [= <-]; exact D).
  assert (CC : forall m n, unum a = Some m -> unum b = Some n -> option_map (ul w) (sem_uop o (uwn w) m n) = Some e' -> better S (SOp (OUBin w o) [a; b]) e' (CUint w)).
  { intros m n Ua Ub Q. destruct (unum_ok _ _ Ua) as [wa ->]. destruct (unum_ok _ _ Ub) as [wb ->]. destruct (sem_uop o (uwn w) m n) as [r|] eqn:Er; [|discriminate Q]. injection Q as <-.
    apply ul_ty in Xa as [Wa Ra]. apply ul_ty in Xb as [Wb Rb]. injection Wa as <-. injection Wb as <-. apply to_lit with (VUint w r); [constructor; exact (uop_range o w m n r Ra Rb Er)|reflexivity|]. intros call rho lg v K R Ev. apply e2 in Ev as [la [va [lb [vb [Ea [Eb [Ev _]]]]]]]. apply ev_u in Ea as ->. apply ev_u in Eb as ->. cbn [sem_op] in Ev. rewrite Er in Ev. injection Ev as <-. reflexivity. }
  assert (wid : forall z, 0 <= z < 2 ^ bits_of w -> wrap (uwn w) z = z) by (intros z Hz; apply wrap_id; destruct w; exact Hz).
  assert (UA : forall n, unum a = Some n -> forall call rho lg v, seval call rho a = Ok (lg, v) -> v = VUint w n) by (intros n Q; destruct (unum_ok _ _ Q) as [wa ->]; apply ul_ty in Xa as [Wa _]; injection Wa as <-; intros call rho lg v; apply ev_u).
  assert (UB : forall n, unum b = Some n -> forall call rho lg v, seval call rho b = Ok (lg, v) -> v = VUint w n) by (intros n Q; destruct (unum_ok _ _ Q) as [wa ->]; apply ul_ty in Xb as [Wa _]; injection Wa as <-; intros call rho lg v; apply ev_u).
  assert (SW : forall n, unum a = Some n -> o = UAdd \/ o = UMul -> Some (SOp (OUBin w o) [b; a]) = Some e' -> better S (SOp (OUBin w o) [a; b]) e' (CUint w)).
  { intros n Q O [= <-]. destruct (unum_ok _ _ Q) as [wa ->]. apply to_swap; [apply XOp with [CUint w; CUint w]; [repeat constructor; assumption|constructor]|]. intros la lb va vb v. cbn [sem_op]. destruct va, vb; try discriminate. destruct O as [-> | ->]; cbn [sem_uop]; [rewrite (Z.add_comm n0 n1)|rewrite (Z.mul_comm n0 n1)]; auto. }
  assert (L0 : (forall call rho la va lb vb v, call_ok call -> rok S rho -> seval call rho a = Ok (la, va) -> seval call rho b = Ok (lb, vb) -> sem_op (OUBin w o) [is_slit a; is_slit b] [va; vb] = Ok v -> v = VUint w 0) -> Some (ul w 0) = Some e' -> better S (SOp (OUBin w o) [a; b]) e' (CUint w)).
  { intros H [= <-]. apply to_lit with (VUint w 0); [constructor; lia|reflexivity|]. intros call rho lg v K R Ev. apply e2 in Ev as [la [va [lb [vb [Ea [Eb [Ev _]]]]]]]. exact (H _ _ _ _ _ _ _ K R Ea Eb Ev). }
  assert (FA : (forall m n, 0 <= m < 2 ^ bits_of w -> unum b = Some n -> sem_uop o (uwn w) m n = Some m) -> forall n, unum b = Some n -> Some a = Some e' -> better S (SOp (OUBin w o) [a; b]) e' (CUint w)).
  { intros H n Q [= <-]. apply to_fst; [exact Xa|]. intros call rho la va lb vb v K R Ea Eb Ev. rewrite (UB n Q _ _ _ _ Eb) in Ev. destruct (V _ _ _ _ _ K R Xa Ea) as [m [-> Rm]]. cbn [sem_op] in Ev. rewrite (H m n Rm Q) in Ev. injection Ev as <-. reflexivity. }
  assert (FB : (forall m n, 0 <= m < 2 ^ bits_of w -> unum a = Some n -> sem_uop o (uwn w) n m = Some m) -> forall n, unum a = Some n -> Some b = Some e' -> better S (SOp (OUBin w o) [a; b]) e' (CUint w)).
  { intros H n Q [= <-]. apply to_snd; [exact Xb|]. intros call rho la va lb vb v K R Ea Eb Ev. rewrite (UA n Q _ _ _ _ Ea) in Ev. destruct (V _ _ _ _ _ K R Xb Eb) as [m [-> Rm]]. cbn [sem_op] in Ev. rewrite (H m n Rm Q) in Ev. injection Ev as <-. reflexivity. }
  assert (ZA : (forall m n, 0 <= m < 2 ^ bits_of w -> unum b = Some n -> sem_uop o (uwn w) m n = Some 0) -> forall n, unum b = Some n -> Some (ul w 0) = Some e' -> better S (SOp (OUBin w o) [a; b]) e' (CUint w)).
  { intros H n Q. apply L0. intros call rho la va lb vb v K R Ea Eb Ev. rewrite (UB n Q _ _ _ _ Eb) in Ev. destruct (V _ _ _ _ _ K R Xa Ea) as [m [-> Rm]]. cbn [sem_op] in Ev. rewrite (H m n Rm Q) in Ev. injection Ev as <-. reflexivity. }
  assert (ZB : (forall m n, 0 <= m < 2 ^ bits_of w -> unum a = Some n -> sem_uop o (uwn w) n m = Some 0) -> forall n, unum a = Some n -> Some (ul w 0) = Some e' -> better S (SOp (OUBin w o) [a; b]) e' (CUint w)).
  { intros H n Q. apply L0. intros call rho la va lb vb v K R Ea Eb Ev. rewrite (UA n Q _ _ _ _ Ea) in Ev. destruct (V _ _ _ _ _ K R Xb Eb) as [m [-> Rm]]. cbn [sem_op] in Ev. rewrite (H m n Rm Q) in Ev. injection Ev as <-. reflexivity. }
  unfold usimp in E. destruct o; try (exact (DD E)); destruct (unum a) as [m|] eqn:Ua; destruct (unum b) as [n|] eqn:Ub; try (exact (CC m n eq_refl eq_refl E)); try (exact (DD E));
  repeat match type of E with (if ?c =? ?k then _ else _) = _ => destruct (Z.eqb_spec c k) as [->|_] end; try (exact (DD E)); try (refine (SW _ eq_refl _ E); tauto);
  try (refine (FA _ _ eq_refl E); intros q r Hq [= <-]; cbn [sem_uop]; first [rewrite Z.add_0_r|rewrite Z.sub_0_r|rewrite Z.mul_1_r|rewrite Z.lxor_0_r|rewrite Z.div_1_r]; first [reflexivity|rewrite (wid q Hq); reflexivity]);
  try (refine (FB _ _ eq_refl E); intros q r Hq [= <-]; cbn [sem_uop]; first [rewrite Z.add_0_l|rewrite Z.mul_1_l|rewrite Z.lxor_0_l]; first [reflexivity|rewrite (wid q Hq); reflexivity]);
  try (refine (ZA _ _ eq_refl E); intros q r Hq [= <-]; cbn [sem_uop]; first [rewrite Z.mul_0_r, (wid 0 ltac:(lia)); reflexivity|rewrite Z.mod_1_r; reflexivity|rewrite Z.land_0_r; reflexivity]);
  try (refine (ZB _ _ eq_refl E); intros q r Hq [= <-]; cbn [sem_uop]; first [rewrite Z.mul_0_l, (wid 0 ltac:(lia)); reflexivity|rewrite Z.land_0_l; reflexivity]).
  destruct (sexp_eqb a b) eqn:Q; [|exact (DD E)]. apply sexp_eqb_ok in Q as <-. refine (L0 _ E). intros call rho la va lb vb v K R Ea Eb Ev. rewrite Ea in Eb. injection Eb as <- <-. destruct (V _ _ _ _ _ K R Xa Ea) as [m [-> _]]. cbn [sem_op sem_uop] in Ev. rewrite Z.lxor_nilpotent in Ev. injection Ev as <-. reflexivity.
Qed.

Lemma eq_lits : forall a b v w S t, xty S a t -> xty S b t -> cval a = Some v -> cval b = Some w -> better S (SOp OEq [a; b]) (bl (value_eqb v w)) CBool.
Proof.
  intros a b v w S t Xa Xb Ca Cb. apply to_lit with (VBool (value_eqb v w)); [constructor|reflexivity|]. intros call rho lg u K R Ev. apply e2 in Ev as [la [va [lb [vb [Ea [Eb [Ev _]]]]]]]. rewrite (cval_eval _ _ Ca) in Ea. rewrite (cval_eval _ _ Cb) in Eb. injection Ea as _ <-. injection Eb as _ <-. cbn [sem_op] in Ev. injection Ev as <-. reflexivity.
Qed.
Lemma bool_ty : forall S a call rho lg v, call_ok call -> rok S rho -> xty S a CBool -> seval call rho a = Ok (lg, v) -> exists b, v = VBool b.
Proof. intros S a call rho lg v K R X E. exact (type_bool _ (proj1 (eval_typed call K) _ _ _ X _ _ _ R E)). Qed.
Lemma find_es : forall m ks es call rho lg vs, sevals call rho es = Ok (lg, vs) -> forall e', option_map snd (find (fun q => String.eqb (fst q) m) (combine ks es)) = Some e' ->
  In e' es /\ exists lg' v, seval call rho e' = Ok (lg', v) /\ member m (combine ks vs) = Some v /\ sublog lg' lg.
Proof.
  intros m. induction ks as [|k ks IH]; intros [|e es] call rho lg vs E e' H; try discriminate H. rewrite u_el_cons in E. apply ok_inv in E as [[la v] [Ea E]]. apply ok_inv in E as [[lb us] [Eb E]]. cbn [fst snd] in E. injection E as <- <-. cbn [combine find fst snd member] in *.
  destruct (String.eqb k m).
  - injection H as <-. split; [left; reflexivity|]. exists la, v. split; [exact Ea|]. split; [reflexivity|]. apply sublog_ext, sublog_refl.
  - destruct (IH es call rho lb us Eb e' H) as [I [lg' [u [A [B C]]]]]. split; [right; exact I|]. exists lg', u. split; [exact A|]. split; [exact B|apply sub_pre; exact C].
Qed.
Lemma find_ty : forall S m t ks es ts a b, xtys S es ts -> length ks = length ts -> combine ks ts = a ++ (m, t) :: b -> ~ In m (map fst a) -> forall e', option_map snd (find (fun q => String.eqb (fst q) m) (combine ks es)) = Some e' -> xty S e' t /\ In e' es.
Proof.
  intros S m t. induction ks as [|k ks IH]; intros es ts a b X L Q N e' H; [discriminate H|]. destruct X as [|S e es u ts X Xs]; [discriminate L|]. cbn [combine find fst snd] in *. destruct a as [|[k0 u0] a]; cbn [app] in Q.
  - injection Q as -> -> _. rewrite String.eqb_refl in H. injection H as <-. split; [exact X|left; reflexivity].
  - injection Q as -> -> Q. cbn [map fst] in N. destruct (String.eqb_spec k0 m) as [->|_]; [destruct N; left; reflexivity|]. destruct (IH es ts a b Xs ltac:(injection L; auto) Q ltac:(intros I; apply N; right; exact I) e' H) as [A B]. split; [exact A|right; exact B].
Qed.
Lemma in_ids : forall (f : sexp -> list rid) e es, In e es -> incl (f e) (idlist f es).
Proof. intros f e es I x Hx. rewrite idlist_flat. apply in_flat_map. exists e. auto. Qed.
Lemma nth_es : forall es call rho lg vs, sevals call rho es = Ok (lg, vs) -> forall k e', nth_error es k = Some e' -> exists lg' v, seval call rho e' = Ok (lg', v) /\ nth_error vs k = Some v /\ sublog lg' lg.
Proof.
  induction es as [|e es IH]; intros call rho lg vs E k e' N; [destruct k; discriminate N|]. rewrite u_el_cons in E. apply ok_inv in E as [[la v] [Ea E]]. apply ok_inv in E as [[lb us] [Eb E]]. cbn [fst snd] in E. injection E as <- <-. destruct k as [|k]; cbn [nth_error] in *.
  - injection N as <-. exists la, v. split; [exact Ea|]. split; [reflexivity|]. apply sublog_ext, sublog_refl.
  - destruct (IH call rho lb us Eb k e' N) as [lg' [u [A [B C]]]]. exists lg', u. split; [exact A|]. split; [exact B|apply sub_pre; exact C].
Qed.
Lemma nth_ty : forall S es ts, xtys S es ts -> forall k t e', nth_error ts k = Some t -> nth_error es k = Some e' -> xty S e' t.
Proof. intros S es ts X. apply xtys_f2 in X. induction X as [|e t es ts X Xs IH]; intros [|k] u e' N M; try discriminate N; cbn [nth_error] in *; [congruence|exact (IH k u e' N M)]. Qed.
Ltac lit2 E :=
  let c := fresh "call" in let r := fresh "rho" in let lg := fresh "lg" in let v := fresh "v" in let K := fresh "K" in let R := fresh "R" in
  intros c r lg v K R E; apply e2 in E as [? [? [? [? [?Ea [?Eb [E _]]]]]]].
Lemma fdiv_f1 : forall x, fdiv x f1 = x.
Proof. intros x. field. apply F_1_neq_0. Qed.
Lemma dflt_ok : forall S e e' t, xty S e t -> Some e = Some e' -> better S e e' t.
Proof. intros S e e' t X [= <-]. apply better_refl. exact X. Qed.
Theorem psimp_ok : forall S op args t e', xty S (SOp op args) t -> psimp op args = Some e' -> better S (SOp op args) e' t.
Proof.
  intros S op args t e' X E. pose proof (fun H => dflt_ok S (SOp op args) e' t X H) as DF.
  destruct op; cbn [psimp] in E; try exact (DF E).
  - (* field operators *) rename op into o.
    destruct args as [|a [|b [|]]]; try (destruct o; exact (DF E)). apply x2 in X as [u [w [Xa [Xb Y]]]]. inversion Y; subst.
    assert (CC : forall o m n, o <> FDiv -> fnum a = Some m -> fnum b = Some n -> option_map fl (sem_fop o m n) = Some e' -> better S (SOp (OFBin o) [a; b]) e' CField).
    { clear. intros o m n No Ua Ub Q. apply fnum_ok in Ua as ->. apply fnum_ok in Ub as ->. destruct (sem_fop o m n) as [r|] eqn:Er; [|discriminate Q]. injection Q as <-. apply to_lit with (VField r); [constructor|reflexivity|]. lit2 Ev. apply ev_f in Ea as ->. apply ev_f in Eb as ->. cbn [sem_op] in Ev. rewrite Er in Ev. injection Ev as <-. reflexivity. }
    destruct o; try (destruct (fnum a) as [m|] eqn:Ua; [destruct (fnum b) as [n|] eqn:Ub; [refine (CC _ m n _ eq_refl eq_refl E); discriminate|exact (DF E)]|exact (DF E)]).
    destruct (fnum b) as [n|] eqn:Ub; [|exact (DF E)]. destruct (Feqb n f0) eqn:N0; [discriminate E|]. destruct (Feqb n f1) eqn:N1.
    + injection E as <-. apply Feqb_eq in N1 as ->. apply to_fst; [exact Xa|]. intros call rho la va lb vb v K R Ea Eb Ev. apply fnum_ok in Ub as ->. apply ev_f in Eb as ->. destruct (type_field _ (proj1 (eval_typed call K) _ _ _ Xa _ _ _ R Ea)) as [x ->]. cbn [sem_op sem_fop] in Ev. rewrite N0 in Ev. injection Ev as <-. rewrite fdiv_f1. reflexivity.
    + destruct (fnum a) as [m|] eqn:Ua; [|exact (DF E)]. injection E as <-. apply fnum_ok in Ua as ->. apply fnum_ok in Ub as ->. apply to_lit with (VField (fdiv m n)); [constructor|reflexivity|]. lit2 Ev. apply ev_f in Ea as ->. apply ev_f in Eb as ->. cbn [sem_op sem_fop] in Ev. rewrite N0 in Ev. injection Ev as <-. reflexivity.
  - (* minus *)
    destruct args as [|a [|]]; try exact (DF E). destruct (fnum a) as [m|] eqn:Ua; [|exact (DF E)]. injection E as <-. apply fnum_ok in Ua as ->. apply x1 in X as [u [Xa Y]]. inversion Y; subst. apply to_lit with (VField (fsub f0 m)); [constructor|reflexivity|]. intros call rho lg v K R Ev. apply e1 in Ev as [va [Ea Ev]]. apply ev_f in Ea as ->. cbn [sem_op] in Ev. injection Ev as <-. f_equal; ring.
  - (* plus *)
    destruct args as [|a [|]]; try exact (DF E). assert (P : Some a = Some e' -> better S (SOp OPos [a]) e' t).
    { intros [= <-]. apply x1 in X as [u [Xa Y]]. destruct (ids1 OPos a) as [I J]. split; [inversion Y; subst; exact Xa|]. split; [unfold fewer; rewrite I, J; split; apply incl_refl|]. intros call rho K R lg v Ev. apply e1 in Ev as [va [Ea Ev]]. cbn [sem_op] in Ev. injection Ev as <-. exists lg. split; [exact Ea|apply sublog_refl]. }
    destruct (fnum a); [exact (P E)|]. destruct (unum a); [exact (P E)|exact (DF E)].
  - (* comparisons *) rename op into o.
    destruct args as [|a [|b [|]]]; try exact (DF E). apply x2 in X as [u [w [Xa [Xb Y]]]]. destruct o.
    + destruct (fnum a) as [m|] eqn:Ua; [|exact (DF E)]. destruct (fnum b) as [n|] eqn:Ub; [|exact (DF E)]. injection E as <-. apply fnum_ok in Ua as ->. apply fnum_ok in Ub as ->. inversion Y; subst. apply to_lit with (VBool (fval m <? fval n)); [constructor|reflexivity|]. lit2 Ev. apply ev_f in Ea as ->. apply ev_f in Eb as ->. cbn [sem_op is_slit fl existsb id orb] in Ev. injection Ev as <-. reflexivity.
    + destruct (fnum a) as [m|] eqn:Ua; [|exact (DF E)]. destruct (fnum b) as [n|] eqn:Ub; [|exact (DF E)]. injection E as <-. apply fnum_ok in Ua as ->. apply fnum_ok in Ub as ->. inversion Y; subst. apply to_lit with (VBool (fval m <=? fval n)); [constructor|reflexivity|]. lit2 Ev. apply ev_f in Ea as ->. apply ev_f in Eb as ->. cbn [sem_op is_slit fl existsb id orb] in Ev. injection Ev as <-. reflexivity.
    + destruct (unum a) as [m|] eqn:Ua; [|exact (DF E)]. destruct (unum b) as [n|] eqn:Ub; [|exact (DF E)]. injection E as <-. destruct (unum_ok _ _ Ua) as [wa ->]. destruct (unum_ok _ _ Ub) as [wb ->]. inversion Y; subst. apply to_lit with (VBool (m <? n)); [constructor|reflexivity|]. lit2 Ev. apply ev_u in Ea as ->. apply ev_u in Eb as ->. cbn [sem_op] in Ev. injection Ev as <-. reflexivity.
    + destruct (unum a) as [m|] eqn:Ua; [|exact (DF E)]. destruct (unum b) as [n|] eqn:Ub; [|exact (DF E)]. injection E as <-. destruct (unum_ok _ _ Ua) as [wa ->]. destruct (unum_ok _ _ Ub) as [wb ->]. inversion Y; subst. apply to_lit with (VBool (m <=? n)); [constructor|reflexivity|]. lit2 Ev. apply ev_u in Ea as ->. apply ev_u in Eb as ->. cbn [sem_op] in Ev. injection Ev as <-. reflexivity.
  - (* equality *)
    destruct args as [|a [|b [|]]]; try exact (DF E). apply x2 in X as [u [w [Xa [Xb Y]]]]. inversion Y; subst. destruct (sexp_eqb a b) eqn:Q.
    + injection E as <-. apply sexp_eqb_ok in Q as <-. apply to_lit with (VBool true); [constructor|reflexivity|]. lit2 Ev. rewrite Ea in Eb. injection Eb as <- <-. cbn [sem_op] in Ev. injection Ev as <-. rewrite (veqb_refl _ _ (proj1 (eval_typed _ K) _ _ _ Xa _ _ _ R Ea)). reflexivity.
    + destruct (isc a && isc b); [|exact (DF E)]. destruct (cval a) as [v|] eqn:Ca; [|discriminate E]. destruct (cval b) as [w'|] eqn:Cb; [|discriminate E]. injection E as <-. exact (eq_lits a b v w' S _ Xa Xb Ca Cb).
  - (* boolean operators *) rename op into o.
    destruct args as [|a [|b [|]]]; try (destruct o; exact (DF E)). apply x2 in X as [u [w [Xa [Xb Y]]]]. inversion Y; subst.
    assert (BA : forall x, bnum a = Some x -> forall call rho lg v, seval call rho a = Ok (lg, v) -> v = VBool x) by (intros x Q; apply bnum_ok in Q as ->; intros; eapply ev_b; eassumption).
    assert (BB : forall x, bnum b = Some x -> forall call rho lg v, seval call rho b = Ok (lg, v) -> v = VBool x) by (intros x Q; apply bnum_ok in Q as ->; intros; eapply ev_b; eassumption).
    assert (LT : forall r, (forall call rho lg1 lg2 p q, seval call rho a = Ok (lg1, VBool p) -> seval call rho b = Ok (lg2, VBool q) -> sem_bop o p q = r) -> Some (bl r) = Some e' -> better S (SOp (OBBin o) [a; b]) e' CBool).
    { intros r H [= <-]. apply to_lit with (VBool r); [constructor|reflexivity|]. lit2 Ev. destruct (bool_ty _ _ _ _ _ _ K R Xa Ea) as [p ->]. destruct (bool_ty _ _ _ _ _ _ K R Xb Eb) as [q ->]. cbn [sem_op] in Ev. rewrite (H _ _ _ _ _ _ Ea Eb) in Ev. injection Ev as <-. reflexivity. }
    assert (TA : (forall call rho lg1 lg2 p q, seval call rho a = Ok (lg1, VBool p) -> seval call rho b = Ok (lg2, VBool q) -> sem_bop o p q = p) -> Some a = Some e' -> better S (SOp (OBBin o) [a; b]) e' CBool).
    { intros H [= <-]. apply to_fst; [exact Xa|]. intros call rho la va lb vb v K R Ea Eb Ev. destruct (bool_ty _ _ _ _ _ _ K R Xa Ea) as [p ->]. destruct (bool_ty _ _ _ _ _ _ K R Xb Eb) as [q ->]. cbn [sem_op] in Ev. rewrite (H _ _ _ _ _ _ Ea Eb) in Ev. injection Ev as <-. reflexivity. }
    assert (TB : (forall call rho lg1 lg2 p q, seval call rho a = Ok (lg1, VBool p) -> seval call rho b = Ok (lg2, VBool q) -> sem_bop o p q = q) -> Some b = Some e' -> better S (SOp (OBBin o) [a; b]) e' CBool).
    { intros H [= <-]. apply to_snd; [exact Xb|]. intros call rho la va lb vb v K R Ea Eb Ev. destruct (bool_ty _ _ _ _ _ _ K R Xa Ea) as [p ->]. destruct (bool_ty _ _ _ _ _ _ K R Xb Eb) as [q ->]. cbn [sem_op] in Ev. rewrite (H _ _ _ _ _ _ Ea Eb) in Ev. injection Ev as <-. reflexivity. }
    assert (GG : forall c r l1 l2 p q, seval c r a = Ok (l1, VBool p) -> seval c r b = Ok (l2, VBool q) -> (forall x, bnum a = Some x -> p = x) /\ (forall x, bnum b = Some x -> q = x)).
    { intros c r l1 l2 p q Ea Eb. split; intros x Q; [pose proof (BA x Q _ _ _ _ Ea) as Z0|pose proof (BB x Q _ _ _ _ Eb) as Z0]; injection Z0; auto. }
    destruct o; destruct (bnum a) as [x|] eqn:Ua; destruct (bnum b) as [y|] eqn:Ub; try destruct x; try destruct y; try exact (DF E);
    first [refine (LT _ _ E)|refine (TA _ E)|refine (TB _ E)]; intros c r l1 l2 p q Ea Eb; destruct (GG _ _ _ _ _ _ Ea Eb) as [G1 G2]; try (pose proof (G1 _ eq_refl); subst p); try (pose proof (G2 _ eq_refl); subst q); cbn [sem_bop]; try destruct p; try destruct q; reflexivity.
  - (* not *)
    destruct args as [|a [|]]; try exact (DF E). destruct (bnum a) as [m|] eqn:Ua; [|exact (DF E)]. injection E as <-. apply bnum_ok in Ua as ->. apply x1 in X as [u [Xa Y]]. inversion Y; subst. apply to_lit with (VBool (negb m)); [constructor|reflexivity|]. intros call rho lg v K R Ev. apply e1 in Ev as [va [Ea Ev]]. apply ev_b in Ea as ->. cbn [sem_op] in Ev. injection Ev as <-. reflexivity.
  - (* integer operators *)
    destruct args as [|a [|b [|]]]; try exact (DF E). apply x2 in X as [u [w' [Xa [Xb Y]]]]. inversion Y; subst. exact (usimp_ok S _ _ _ _ _ Xa Xb E).
  - destruct args as [|a [|]]; try exact (DF E). destruct (unum a) as [m|] eqn:Ua; [|exact (DF E)]. injection E as <-. destruct (unum_ok _ _ Ua) as [wa ->]. apply x1 in X as [u [Xa Y]]. inversion Y; subst. apply ul_ty in Xa as [Wa Ra]. injection Wa as <-. apply to_lit with (VUint w (2 ^ bits_of w - 1 - m)); [constructor; lia|reflexivity|]. intros call rho lg v K R Ev. apply e1 in Ev as [va [Ea Ev]]. apply ev_u in Ea as ->. cbn [sem_op] in Ev. injection Ev as <-. reflexivity.
  - destruct args as [|a [|]]; try exact (DF E). destruct (unum a) as [m|] eqn:Ua; [|exact (DF E)]. injection E as <-. destruct (unum_ok _ _ Ua) as [wa ->]. apply x1 in X as [u [Xa Y]]. inversion Y; subst. apply ul_ty in Xa as [Wa Ra]. injection Wa as <-. apply to_lit with (VUint w ((- m) mod 2 ^ bits_of w)); [constructor; apply Z.mod_pos_bound; destruct w; reflexivity|reflexivity|]. intros call rho lg v K R Ev. apply e1 in Ev as [va [Ea Ev]]. apply ev_u in Ea as ->. cbn [sem_op] in Ev. injection Ev as <-. reflexivity.
  - (* selection *)
    destruct args as [|a [|i [|]]]; try (destruct a as [|[]| | |]; exact (DF E)); try exact (DF E). destruct a as [t0 x|op es|k e cs|c x y|ts t0 f g a]; try exact (DF E). destruct op; try exact (DF E). destruct (unum i) as [k|] eqn:Ui; [|exact (DF E)]. destruct (k <? Z.of_nat n) eqn:Hk; [|discriminate E]. destruct (expands spreads es) as [l|] eqn:El; [|discriminate E]. destruct (unum_ok _ _ Ui) as [wi ->]. exact (select_ok S _ _ _ _ _ _ _ _ l _ X Hk El E).
  - (* member *)
    destruct args as [|a [|]]; try exact (DF E); try (destruct a as [|[]| | |]; exact (DF E)). destruct a as [t0 x|op es|k e cs|c x y|ts t0 f g a]; try exact (DF E). destruct op; try exact (DF E). pose proof X as X0. apply x1 in X as [u [Xa Y]]. inversion Y as [| | | | | | | | | | | | | | | | | | | | |ms0 m0 t1 MM| | | | | |]; subst. destruct MM as [a [b [Q N]]]. inversion Xa as [|S0 o args us t1 X1 Y1| | |]; subst. inversion Y1; subst.
    match goal with L : Datatypes.length _ = Datatypes.length _, Q : combine _ _ = _ |- _ => destruct (find_ty S m t ks es us a b X1 L Q N e' E) as [Te Ie] end. split; [exact Te|]. split; [unfold fewer; destruct (ids1 (OMem (combine ks us) m) (SOp (OStr ks) es)) as [-> ->]; cbn [eids slids]; split; apply in_ids; exact Ie|].
    intros call rho K R lg v Ev. apply e1 in Ev as [va [Ea Ev]]. rewrite u_seval_op in Ea. apply ok_inv in Ea as [[la vs] [Es Ea]]. cbn [sem_op fst snd] in Ea. destruct (length ks =? length vs)%nat; [|discriminate Ea]. injection Ea as <- <-. cbn [sem_op] in Ev. destruct (find_es m ks es call rho la vs Es e' E) as [_ [lg' [v' [A [B C]]]]]. rewrite B in Ev. injection Ev as <-. exists lg'. auto.
  - (* element *)
    destruct args as [|a [|]]; try exact (DF E); try (destruct a as [|[]| | |]; exact (DF E)). destruct a as [t0 x|op es|k' e cs|c x y|ts0 t0 f g a]; try exact (DF E). destruct op; try exact (DF E). pose proof X as X0. apply x1 in X as [u [Xa Y]]. inversion Y as [| | | | | | | | | | | | | | | | | | | | | |ts1 k1 t1 MM| | | | |]; subst. inversion Xa as [|S0 o args us t1 X1 Y1| | |]; subst. inversion Y1; subst.
    split; [exact (nth_ty S es ts X1 k t e' MM E)|]. split; [unfold fewer; destruct (ids1 (OElt ts k) (SOp OTup es)) as [-> ->]; cbn [eids slids]; split; apply in_ids; exact (nth_error_In _ _ E)|].
    intros call rho K R lg v Ev. apply e1 in Ev as [va [Ea Ev]]. rewrite u_seval_op in Ea. apply ok_inv in Ea as [[la vs] [Es Ea]]. cbn [sem_op fst snd obnd] in Ea. injection Ea as <- <-. cbn [sem_op] in Ev. destruct (nth_es es call rho la vs Es k e' E) as [lg' [v' [A [B C]]]]. rewrite B in Ev. injection Ev as <-. exists lg'. auto.
  - (* array values *)
    injection E as <-. inversion X as [|S0 o args0 us t1 X1 Y1| | |]; subst. inversion Y1; subst. apply splice_ok with us; assumption.
Qed.
End TPropOps.
