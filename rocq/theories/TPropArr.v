(** Proofs about TProp.v: array values, spreads, and selection. *)
From Coq Require Import String Ascii.
From Coq Require Import ZArith NArith List Bool Lia.
From Verif Require Import PField Interp Bits Zir CgProg UintOpt Str Abi Typed Flatten FlattenOps FlattenSim FlattenRun Writes Redefine WritesVal WritesExp ZPropStmt Src SrcTy TProp TPropOk.
Import ListNotations.
Open Scope Z_scope.

Section TPropArr.
Context {PF : PrimeField}.

Definition sameval (S : rctx) (e e' : sexp) : Prop := forall call rho, call_ok call -> rok S rho -> forall lg v, seval call rho e = Ok (lg, v) -> exists lg', seval call rho e' = Ok (lg', v) /\ sublog lg' lg.
Definition fewer (e e' : sexp) : Prop := incl (eids e') (eids e) /\ incl (slids e') (slids e).
Definition better (S : rctx) (e e' : sexp) (t : cty) : Prop := xty S e' t /\ fewer e e' /\ sameval S e e'.
Lemma better_refl : forall S e t, xty S e t -> better S e e t.
Proof. intros S e t H. split; [exact H|]. split; [split; apply incl_refl|]. intros call rho _ _ lg v E. exists lg. split; [exact E|apply sublog_refl]. Qed.

(** ** The pieces of an array value *)
Inductive pieces (S : rctx) (ty : cty) : list (bool * sexp) -> nat -> Prop :=
| pc_nil : pieces S ty [] 0
| pc_one : forall e l n, xty S e ty -> pieces S ty l n -> pieces S ty ((false, e) :: l) (Datatypes.S n)
| pc_spr : forall e l m n, xty S e (CArray ty m) -> pieces S ty l n -> pieces S ty ((true, e) :: l) (m + n).
Definition contrib (s : bool) (v : value_) : option (list value_) := if s then match v with VArray l => Some l | _ => None end else Some [v].
Fixpoint pev (call : caller) (rho : renv) (l : list (bool * sexp)) : outcome (list entry * list value_) :=
  match l with
  | [] => Ok ([], [])
  | q :: r => obnd (seval call rho (snd q)) (fun a => obnd (pev call rho r) (fun b => obnd (of_opt (contrib (fst q) (snd a))) (fun c => Ok (fst a ++ fst b, c ++ snd b))))
  end.
Lemma arr_len : forall ty sp ts n, arr_ty ty sp ts n -> length sp = length ts.
Proof. intros ty sp ts n H. induction H; cbn [length]; congruence. Qed.
Lemma xtys_len : forall S es ts, xtys S es ts -> length es = length ts.
Proof. intros S es ts H. apply xtys_f2 in H. exact (f2_len _ _ _ _ _ H). Qed.
Lemma pieces_in : forall S ty sps es ts n, arr_ty ty sps ts n -> xtys S es ts -> pieces S ty (combine sps es) n.
Proof. intros S ty sps es ts n H. revert es. induction H as [|sp ts n H IH|sp ts n m H IH]; intros es X; inversion X; subst; cbn [combine]; constructor; auto. Qed.
Lemma pieces_out : forall S ty l n, pieces S ty l n -> exists ts, arr_ty ty (map fst l) ts n /\ xtys S (map snd l) ts.
Proof. intros S ty l n H. induction H as [|e l n X H [ts [A B]]|e l m n X H [ts [A B]]]; [exists []|exists (ty :: ts)|exists (CArray ty m :: ts)]; split; constructor; assumption. Qed.
Lemma comb_fst : forall A B (l : list A) (m : list B), length l = length m -> map fst (combine l m) = l /\ map snd (combine l m) = m.
Proof. intros A B. induction l as [|a l IH]; intros [|b m] H; try discriminate H; [auto|]. cbn [combine map fst snd]. destruct (IH m) as [-> ->]; [injection H; auto|]. auto. Qed.
Lemma pev_spread : forall call rho sps es, length sps = length es -> forall lg vs w, sevals call rho es = Ok (lg, vs) -> spread sps vs = Some w -> pev call rho (combine sps es) = Ok (lg, w).
Proof.
  intros call rho. induction sps as [|s sps IH]; intros [|e es] L lg vs w E P; try discriminate L.
  - injection E as <- <-. injection P as <-. reflexivity.
  - rewrite u_el_cons in E. apply ok_inv in E as [[la v] [Ea E]]. apply ok_inv in E as [[lb us] [Eb E]]. cbn [fst snd] in E. injection E as <- <-. cbn [combine pev fst snd]. rewrite Ea. cbn [obnd fst snd].
    destruct s; cbn [spread] in P.
    + destruct v as [| | |l| |]; try discriminate P. destruct (spread sps us) as [w'|] eqn:Q; [|discriminate P]. injection P as <-. rewrite (IH es ltac:(injection L; auto) lb us w' Eb Q). reflexivity.
    + destruct (spread sps us) as [w'|] eqn:Q; [|destruct v; discriminate P]. assert (w = v :: w') by (destruct v; cbn [option_map] in P; congruence). subst w. rewrite (IH es ltac:(injection L; auto) lb us w' Eb Q). reflexivity.
Qed.
Lemma pev_back : forall call rho l lg w, pev call rho l = Ok (lg, w) -> exists vs, sevals call rho (map snd l) = Ok (lg, vs) /\ spread (map fst l) vs = Some w.
Proof.
  intros call rho. induction l as [|[s e] l IH]; intros lg w E; cbn [pev fst snd] in E.
  - injection E as <- <-. exists []. auto.
  - apply ok_inv in E as [[la v] [Ea E]]. apply ok_inv in E as [[lb us] [Eb E]]. cbn [fst snd] in E. apply ok_inv in E as [c [Ec E]]. injection E as <- <-. destruct (IH _ _ Eb) as [vs [A B]]. exists (v :: vs). cbn [map fst snd]. rewrite u_el_cons, Ea. cbn [obnd fst snd]. rewrite A. split; [reflexivity|].
    destruct s; cbn [contrib] in Ec; [destruct v as [| | |q| |]; try discriminate Ec|]; injection Ec as <-; cbn [spread]; rewrite B; [reflexivity|destruct v; reflexivity].
Qed.
Lemma u_arr : forall call rho ty n sps es, length sps = length es -> forall lg v, seval call rho (SOp (OArr ty n sps) es) = Ok (lg, v) <-> exists w, v = VArray w /\ pev call rho (combine sps es) = Ok (lg, w).
Proof.
  intros call rho ty n sps es L lg v. rewrite u_seval_op. split.
  - intros H. apply ok_inv in H as [[la vs] [Ea H]]. cbn [fst snd sem_op] in H. destruct (spread sps vs) as [w|] eqn:P; [|discriminate H]. cbn [option_map of_opt obnd] in H. injection H as <- <-. exists w. split; [reflexivity|]. exact (pev_spread call rho sps es L la vs w Ea P).
  - intros [w [-> H]]. destruct (pev_back _ _ _ _ _ H) as [vs [A B]]. destruct (comb_fst _ _ sps es L) as [C D]. rewrite C in B. rewrite D in A. rewrite A. cbn [obnd fst snd sem_op]. rewrite B. reflexivity.
Qed.
Lemma pev_app : forall call rho a b lg w, pev call rho (a ++ b) = Ok (lg, w) <-> exists l1 w1 l2 w2, pev call rho a = Ok (l1, w1) /\ pev call rho b = Ok (l2, w2) /\ lg = l1 ++ l2 /\ w = w1 ++ w2.
Proof.
  intros call rho. induction a as [|q a IH]; intros b lg w; cbn [app pev].
  - split; [intros H; exists [], [], lg, w; auto|intros [l1 [w1 [l2 [w2 [A [B [-> ->]]]]]]]; injection A as <- <-; exact B].
  - split.
    + intros H. apply ok_inv in H as [[la v] [Ea H]]. apply ok_inv in H as [[lb u] [Eb H]]. cbn [fst snd] in H. apply ok_inv in H as [c [Ec H]]. injection H as <- <-. apply IH in Eb as [l1 [w1 [l2 [w2 [A [B [-> ->]]]]]]]. exists (la ++ l1), (c ++ w1), l2, w2. rewrite Ea. cbn [obnd fst snd]. rewrite A. cbn [obnd fst snd]. rewrite Ec. cbn [obnd]. rewrite !app_assoc. auto.
    + intros [l1 [w1 [l2 [w2 [H [B [-> ->]]]]]]]. apply ok_inv in H as [[la v] [Ea H]]. apply ok_inv in H as [[lb u] [Eb H]]. cbn [fst snd] in H. apply ok_inv in H as [c [Ec H]]. injection H as <- <-. rewrite Ea. cbn [obnd fst snd]. rewrite (proj2 (IH b (lb ++ l2) (u ++ w2))) by (exists lb, u, l2, w2; auto). cbn [obnd fst snd]. rewrite Ec. cbn [obnd]. rewrite !app_assoc. reflexivity.
Qed.
Lemma pieces_app : forall S ty a b n m, pieces S ty a n -> pieces S ty b m -> pieces S ty (a ++ b) (n + m).
Proof. intros S ty a b n m H K. induction H; cbn [app plus]; [exact K|constructor; assumption|rewrite <- Nat.add_assoc; constructor; assumption]. Qed.
Definition qids (f : sexp -> list rid) (l : list (bool * sexp)) : list rid := flat_map (fun q => f (snd q)) l.
Lemma qids_snd : forall f l, qids f l = flat_map f (map snd l).
Proof. intros f l. unfold qids. induction l as [|q l IH]; [reflexivity|]. cbn [flat_map map]. rewrite IH. reflexivity. Qed.
(** ...[a, b] is a, b *)
Lemma splice1_ok : forall S ty s e m, pieces S ty [(s, e)] m -> pieces S ty (splice1 s e) m /\ (forall call rho r, pev call rho [(s, e)] = Ok r -> pev call rho (splice1 s e) = Ok r) /\
  qids eids (splice1 s e) = eids e /\ qids slids (splice1 s e) = slids e.
Proof.
  intros S ty s e m H. assert (D : splice1 s e = [(s, e)] -> pieces S ty (splice1 s e) m /\ (forall call rho r, pev call rho [(s, e)] = Ok r -> pev call rho (splice1 s e) = Ok r) /\ qids eids (splice1 s e) = eids e /\ qids slids (splice1 s e) = slids e).
  { intros ->. split; [exact H|]. split; [auto|]. unfold qids. cbn [flat_map snd]. rewrite !app_nil_r. auto. }
  destruct s; [|apply D; reflexivity]. destruct e as [t x|op es|k e cs|c x y|ts t f g a]; try (apply D; reflexivity). destruct op; try (apply D; reflexivity). clear D. cbn [splice1].
  inversion H as [| |e0 l0 m0 n0 X P]; subst. inversion P; subst. rewrite Nat.add_0_r. inversion X as [|S0 op args us t0 X1 Y| | |]; subst. inversion Y; subst. match goal with A : arr_ty _ _ _ _ |- _ => rename A into AT end.
  assert (L : length spreads = length es) by (rewrite (arr_len _ _ _ _ AT), (xtys_len _ _ _ X1); reflexivity). destruct (comb_fst _ _ spreads es L) as [L1 L2]. split; [exact (pieces_in _ _ _ _ _ _ AT X1)|]. split.
  - intros call rho [lg w] E. cbn [pev fst snd] in E. apply ok_inv in E as [[la v] [Ea E]]. cbn [obnd fst snd] in E. apply (u_arr _ _ _ _ _ _ L) in Ea as [w' [-> Ea]]. cbn [contrib of_opt obnd] in E. injection E as <- <-. rewrite !app_nil_r. exact Ea.
  - rewrite !qids_snd, L2. cbn [eids slids]. rewrite !idlist_flat. auto.
Qed.
Lemma splice_all : forall S ty l m, pieces S ty l m -> pieces S ty (flat_map (fun q => splice1 (fst q) (snd q)) l) m /\ (forall call rho r, pev call rho l = Ok r -> pev call rho (flat_map (fun q => splice1 (fst q) (snd q)) l) = Ok r) /\
  qids eids (flat_map (fun q => splice1 (fst q) (snd q)) l) = qids eids l /\ qids slids (flat_map (fun q => splice1 (fst q) (snd q)) l) = qids slids l.
Proof.
  intros S ty l m H. induction H as [|e l n X H IH|e l m n X H IH]; [split; [constructor|split; auto]| |].
  - destruct IH as [A [B [C D]]]. destruct (splice1_ok S ty false e 1 ltac:(constructor; [exact X|constructor])) as [A1 [B1 [C1 D1]]]. cbn [flat_map fst snd]. split; [exact (pieces_app _ _ _ _ _ _ A1 A)|]. split.
    + intros call rho [lg w] E. change ((false, e) :: l) with ([(false, e)] ++ l) in E. apply pev_app in E as [l1 [w1 [l2 [w2 [E1 [E2 [-> ->]]]]]]]. apply pev_app. exists l1, w1, l2, w2. auto.
    + unfold qids in *. rewrite !flat_map_app. cbn [flat_map snd]. rewrite C, D, C1, D1. auto.
  - destruct IH as [A [B [C D]]]. destruct (splice1_ok S ty true e m ltac:(rewrite <- (Nat.add_0_r m); constructor; [exact X|constructor])) as [A1 [B1 [C1 D1]]]. cbn [flat_map fst snd]. split; [exact (pieces_app _ _ _ _ _ _ A1 A)|]. split.
    + intros call rho [lg w] E. change ((true, e) :: l) with ([(true, e)] ++ l) in E. apply pev_app in E as [l1 [w1 [l2 [w2 [E1 [E2 [-> ->]]]]]]]. apply pev_app. exists l1, w1, l2, w2. auto.
    + unfold qids in *. rewrite !flat_map_app. cbn [flat_map snd]. rewrite C, D, C1, D1. auto.
Qed.
(** the type of an array expression *)
Lemma find_member : forall (m : string) (t : cty) a b, ~ In m (map fst a) -> find (fun q => String.eqb (fst q) m) (a ++ (m, t) :: b) = Some (m, t).
Proof. intros m t. induction a as [|[k u] a IH]; intros b N; cbn [app find fst]; [rewrite String.eqb_refl; reflexivity|]. destruct (String.eqb_spec k m) as [->|_]; [destruct N; left; reflexivity|]. apply IH. intros I. apply N. right. exact I. Qed.
Lemma sty_arr : forall S e t, xty S e t -> forall ty n, t = CArray ty n -> sty e = Some t.
Proof.
  assert (H : (forall S e t, xty S e t -> forall ty n, t = CArray ty n -> sty e = Some t) /\ (forall S es ts, xtys S es ts -> True)); [|exact (proj1 H)].
  apply xty_mut; try (intros; exact I).
  - intros S t x _ ty n _. reflexivity.
  - intros S op args ts t _ _ Y ty n ->. inversion Y; subst; cbn [sty]; try reflexivity; try assumption.
    match goal with X : exists a b, _ |- _ => destruct X as [a [b [-> N]]] end. rewrite find_member by exact N. reflexivity.
  - intros S k e cs te t us _ _ _ _ _ P ty n ->. inversion P; subst; reflexivity.
  - intros S c x y t _ _ _ IH _ _ ty n E. exact (IH ty n E).
  - intros. reflexivity.
Qed.
(** empty spreads are left out *)
Lemma keep_ok : forall S ty l m, pieces S ty l m -> pieces S ty (filter keep l) m /\ incl (qids eids (filter keep l)) (qids eids l) /\ incl (qids slids (filter keep l)) (qids slids l) /\
  forall call rho, call_ok call -> rok S rho -> forall lg w, pev call rho l = Ok (lg, w) -> exists lg', pev call rho (filter keep l) = Ok (lg', w) /\ sublog lg' lg.
Proof.
  intros S ty l m H. induction H as [|e l n X H [A [B [C D]]]|e l m n X H [A [B [C D]]]].
  - split; [constructor|]. split; [apply incl_refl|]. split; [apply incl_refl|]. intros call rho _ _ lg w E. exists lg. split; [exact E|apply sublog_refl].
  - cbn [filter keep]. split; [constructor; assumption|]. unfold qids in *. cbn [flat_map snd]. split; [apply incl_app_app; [apply incl_refl|exact B]|]. split; [apply incl_app_app; [apply incl_refl|exact C]|]. intros call rho K R lg w E. cbn [pev fst snd] in *. apply ok_inv in E as [[la v] [Ea E]]. apply ok_inv in E as [[lb u] [Eb E]]. cbn [fst snd] in E. apply ok_inv in E as [c [Ec E]]. injection E as <- <-. destruct (D call rho K R _ _ Eb) as [lg' [E' Q]]. exists (la ++ lg'). rewrite Ea. cbn [obnd fst snd]. rewrite E'. cbn [obnd fst snd]. rewrite Ec. split; [reflexivity|]. apply sub_app; [apply sublog_refl|exact Q].
  - cbn [filter keep]. rewrite (sty_arr _ _ _ X _ _ eq_refl). destruct (Nat.eqb_spec m 0) as [->|Nz]; cbn [negb].
    + split; [exact A|]. unfold qids in *. cbn [flat_map snd]. split; [apply incl_appr; exact B|]. split; [apply incl_appr; exact C|]. intros call rho K R lg w E. cbn [pev fst snd] in E. apply ok_inv in E as [[la v] [Ea E]]. apply ok_inv in E as [[lb u] [Eb E]]. cbn [fst snd] in E. apply ok_inv in E as [c [Ec E]]. injection E as <- <-.
      pose proof (proj1 (eval_typed call K) _ _ _ X _ _ _ R Ea) as T. apply type_arr in T as [q [-> [Lq _]]]. destruct q; [|discriminate Lq]. injection Ec as <-. destruct (D call rho K R _ _ Eb) as [lg' [E' Q]]. exists lg'. split; [exact E'|]. apply sub_pre. exact Q.
    + split; [constructor; assumption|]. unfold qids in *. cbn [flat_map snd]. split; [apply incl_app_app; [apply incl_refl|exact B]|]. split; [apply incl_app_app; [apply incl_refl|exact C]|]. intros call rho K R lg w E. cbn [pev fst snd] in *. apply ok_inv in E as [[la v] [Ea E]]. apply ok_inv in E as [[lb u] [Eb E]]. cbn [fst snd] in E. apply ok_inv in E as [c [Ec E]]. injection E as <- <-. destruct (D call rho K R _ _ Eb) as [lg' [E' Q]]. exists (la ++ lg'). rewrite Ea. cbn [obnd fst snd]. rewrite E'. cbn [obnd fst snd]. rewrite Ec. split; [reflexivity|]. apply sub_app; [apply sublog_refl|exact Q].
Qed.
Lemma splice_ok : forall S ty n sps es ts, xtys S es ts -> arr_ty ty sps ts n -> better S (SOp (OArr ty n sps) es) (SOp (OArr ty n (map fst (splice sps es))) (map snd (splice sps es))) (CArray ty n).
Proof.
  intros S ty n sps es ts X A. assert (L : length sps = length es) by (rewrite (arr_len _ _ _ _ A), (xtys_len _ _ _ X); reflexivity). pose proof (pieces_in _ _ _ _ _ _ A X) as P. destruct (splice_all _ _ _ _ P) as [P1 [V1 [I1 J1]]]. destruct (keep_ok _ _ _ _ P1) as [P2 [I2 [J2 V2]]]. fold (splice sps es) in *.
  destruct (pieces_out _ _ _ _ P2) as [ts' [A' X']]. split; [apply XOp with ts'; [exact X'|constructor; exact A']|]. split.
  - unfold fewer. cbn [eids slids]. rewrite !idlist_flat. destruct (comb_fst _ _ sps es L) as [_ L2]. rewrite I1, !qids_snd, L2 in I2. rewrite J1, !qids_snd, L2 in J2. split; assumption.
  - intros call rho K R lg v E. apply (u_arr _ _ _ _ _ _ L) in E as [w [-> E]]. destruct (V2 call rho K R _ _ (V1 _ _ _ E)) as [lg' [E' Q]]. exists lg'. split; [|exact Q]. apply u_arr; [rewrite !map_length; reflexivity|]. exists w. split; [reflexivity|]. replace (combine (map fst (splice sps es)) (map snd (splice sps es))) with (splice sps es); [exact E'|]. clear. induction (splice sps es) as [|[s e] l IH]; [reflexivity|]. cbn [map combine fst snd]. rewrite <- IH. reflexivity.
Qed.

(** ** Selection *)
Definition elem_ok (S : rctx) (ty : cty) (src : list sexp) (ev : caller -> renv -> outcome (list entry * list value_)) (k : nat) (e : sexp) : Prop :=
  xty S e ty /\ incl (eids e) (flat_map eids src) /\ incl (slids e) (flat_map slids src) /\
  forall call rho, call_ok call -> rok S rho -> forall lg w, ev call rho = Ok (lg, w) -> exists lg' v, nth_error w k = Some v /\ seval call rho e = Ok (lg', v) /\ sublog lg' lg.
Lemma u_expand_arr : forall ty n sps es, expand true (SOp (OArr ty n sps) es) = expands sps es.
Proof. intros ty n. cbn [expand]. induction sps as [|s sps IH]; intros [|e es]; cbn [expands]; try reflexivity. rewrite <- IH. reflexivity. Qed.
Lemma selects_ok : forall S e ty m l, xty S e (CArray ty m) -> Z.of_nat m <= 2 ^ 32 -> selects e = Some l -> length l = m /\ forall k e', nth_error l k = Some e' -> elem_ok S ty [e] (fun call rho => pev call rho [(true, e)]) k e'.
Proof.
  intros S e ty m l X Hm E. unfold selects in E. rewrite (sty_arr _ _ _ X _ _ eq_refl) in E. injection E as <-. rewrite map_length, seq_length. split; [reflexivity|]. intros k e' N.
  assert (Q : (k < m)%nat /\ e' = SOp (OSel ty) [e; ul W32 (Z.of_nat k)]). { pose proof (nth_error_Some (map (fun i => SOp (OSel ty) [e; ul W32 (Z.of_nat i)]) (seq 0 m)) k) as Q. rewrite N, map_length, seq_length in Q. assert (Hk : (k < m)%nat) by (apply Q; discriminate). split; [exact Hk|]. rewrite (map_nth_error _ k (seq 0 m) (d := k)) in N; [injection N as <-; reflexivity|]. clear - Hk. assert (G : forall m b k, (k < m)%nat -> nth_error (seq b m) k = Some (b + k)%nat) by (clear; induction m as [|m IH]; intros b [|k] Hq; try lia; cbn [seq nth_error]; [f_equal; lia|rewrite IH by lia; f_equal; lia]). exact (G m 0%nat k Hk). }
  destruct Q as [Hk ->]. clear N. split.
  - apply XOp with [CArray ty m; CUint W32]; [|constructor; exact Hm]. constructor; [exact X|]. constructor; [|constructor]. apply XOp with []; [constructor|]. constructor. change (bits_of W32) with 32. lia.
  - cbn [eids slids idlist flat_map ul]. rewrite !app_nil_r. split; [apply incl_refl|]. split; [apply incl_refl|]. intros call rho K R lg w E. cbn [pev fst snd] in E. apply ok_inv in E as [[la v] [Ea E]]. cbn [obnd fst snd] in E. apply ok_inv in E as [c [Ec E]]. injection E as <- <-.
    pose proof (proj1 (eval_typed call K) _ _ _ X _ _ _ R Ea) as T. apply type_arr in T as [q [-> [Lq _]]]. injection Ec as <-. destruct (nth_error q k) as [v|] eqn:N; [|apply nth_error_None in N; lia]. exists la, v. rewrite !app_nil_r. split; [exact N|]. split; [|apply sublog_refl].
    rewrite u_seval_op, u_el_cons, Ea. cbn [obnd fst snd sevals eval_list seval ul sem_op map]. replace (0 <=? Z.of_nat k) with true by (symmetry; apply Z.leb_le; lia). rewrite Nat2Z.id, N. cbn [of_opt obnd]. rewrite !app_nil_r. reflexivity.
Qed.
Definition exp_ok (e : sexp) : Prop := forall S ty m l, xty S e (CArray ty m) -> Z.of_nat m <= 2 ^ 32 -> expand true e = Some l -> length l = m /\ forall k e', nth_error l k = Some e' -> elem_ok S ty [e] (fun call rho => pev call rho [(true, e)]) k e'.
Lemma elem_weaken : forall S ty s1 s2 ev1 ev2 k e, elem_ok S ty s1 ev1 k e -> incl (flat_map eids s1) (flat_map eids s2) -> incl (flat_map slids s1) (flat_map slids s2) ->
  forall k2, (forall call rho lg2 w2, ev2 call rho = Ok (lg2, w2) -> exists lg1 w1, ev1 call rho = Ok (lg1, w1) /\ sublog lg1 lg2 /\ (forall v, nth_error w1 k = Some v -> nth_error w2 k2 = Some v)) -> elem_ok S ty s2 ev2 k2 e.
Proof.
  intros S ty s1 s2 ev1 ev2 k e [X [I [J V]]] I2 J2 k2 W. split; [exact X|]. split; [apply (incl_tran I I2)|]. split; [apply (incl_tran J J2)|]. intros call rho K R lg w E. destruct (W _ _ _ _ E) as [lg1 [w1 [E1 [Q N]]]]. destruct (V call rho K R _ _ E1) as [lg' [v [A [B C]]]]. exists lg', v. split; [apply N; exact A|]. split; [exact B|]. exact (sub_tr _ _ _ _ C Q).
Qed.
Lemma expands_list : forall es, Forall exp_ok es -> forall S ty sps n l, pieces S ty (combine sps es) n -> length sps = length es -> Z.of_nat n <= 2 ^ 32 -> expands sps es = Some l ->
  length l = n /\ forall k e', nth_error l k = Some e' -> elem_ok S ty es (fun call rho => pev call rho (combine sps es)) k e'.
Proof.
  intros es H. induction H as [|e es He H IH]; intros S ty [|s sps] n l P L Hn E; try discriminate L; cbn [expands] in E.
  - injection E as <-. inversion P; subst. split; [reflexivity|]. intros [|k] e' N; discriminate N.
  - destruct (expand s e) as [a|] eqn:Ea; [|discriminate E]. destruct (expands sps es) as [b|] eqn:Eb; [|discriminate E]. injection E as <-. cbn [combine] in P.
    assert (Q : exists m n', n = (m + n')%nat /\ pieces S ty (combine sps es) n' /\ pieces S ty [(s, e)] m /\ length a = m /\ forall k e', nth_error a k = Some e' -> elem_ok S ty [e] (fun call rho => pev call rho [(s, e)]) k e').
    { inversion P as [|e0 l0 n0 X P'|e0 l0 m0 n0 X P']; subst.
      - exists 1%nat, n0. split; [reflexivity|]. split; [exact P'|]. split; [constructor; [exact X|constructor]|]. assert (a = [e]) by (destruct e; cbn [expand] in Ea; congruence). subst a. split; [reflexivity|]. intros [|[|k]] e' N; try discriminate N. injection N as <-. split; [exact X|]. cbn [flat_map]. rewrite !app_nil_r. split; [apply incl_refl|]. split; [apply incl_refl|]. intros call rho K R lg w E. cbn [pev fst snd] in E. apply ok_inv in E as [[la v] [E1 E]]. cbn [obnd fst snd contrib of_opt] in E. injection E as <- <-. exists la, v. rewrite app_nil_r. split; [reflexivity|]. split; [exact E1|apply sublog_refl].
      - exists m0, n0. split; [reflexivity|]. split; [exact P'|]. split; [rewrite <- (Nat.add_0_r m0); constructor; [exact X|constructor]|]. apply (He S ty m0 a X ltac:(lia) Ea). }
    destruct Q as [m [n' [-> [P1 [P0 [La Va]]]]]]. destruct (IH S ty sps n' b P1 ltac:(injection L; auto) ltac:(lia) Eb) as [Lb Vb]. split; [rewrite app_length; congruence|]. intros k e' N. destruct (Nat.lt_ge_cases k (length a)) as [Hk|Hk].
    + rewrite nth_error_app1 in N by exact Hk. apply (elem_weaken _ _ _ _ _ _ k _ (Va _ _ N)); [cbn [flat_map]; rewrite app_nil_r; apply incl_appl, incl_refl|cbn [flat_map]; rewrite app_nil_r; apply incl_appl, incl_refl|].
      intros call rho lg2 w2 E. cbn [combine] in E. change ((s, e) :: combine sps es) with ([(s, e)] ++ combine sps es) in E. apply pev_app in E as [l1 [w1 [l2 [w2' [E1 [E2 [-> ->]]]]]]]. exists l1, w1. split; [exact E1|]. split; [apply sublog_ext, sublog_refl|]. intros v V. rewrite nth_error_app1; [exact V|]. apply nth_error_Some. rewrite V. discriminate.
    + rewrite nth_error_app2 in N by exact Hk. (* the length of the values of the first piece *)
      pose proof (Vb _ _ N) as [X [I [J V]]]. split; [exact X|]. cbn [flat_map]. split; [apply incl_appr; exact I|]. split; [apply incl_appr; exact J|]. intros call rho K R lg w E. cbn [combine] in E. change ((s, e) :: combine sps es) with ([(s, e)] ++ combine sps es) in E. apply pev_app in E as [l1 [w1 [l2 [w2 [E1 [E2 [-> ->]]]]]]].
      assert (Lw : length w1 = m). { cbn [pev fst snd] in E1. apply ok_inv in E1 as [[la v] [E3 E1]]. cbn [obnd fst snd] in E1. apply ok_inv in E1 as [c [Ec E1]]. injection E1 as _ <-. rewrite app_nil_r. inversion P0 as [|e0 l0 n0 X0 P'|e0 l0 m0 n0 X0 P']; subst; inversion P'; subst. - injection Ec as <-. reflexivity. - pose proof (proj1 (eval_typed call K) _ _ _ X0 _ _ _ R E3) as T. apply type_arr in T as [q [-> [Lq _]]]. injection Ec as <-. lia. }
      destruct (V call rho K R _ _ E2) as [lg' [v [A [B C]]]]. exists lg', v. rewrite nth_error_app2 by lia. rewrite Lw, <- La. split; [exact A|]. split; [exact B|apply sub_pre; exact C].
Qed.
Lemma expand_all : forall e, exp_ok e.
Proof.
  assert (D : forall e, (forall ty n sps es, e <> SOp (OArr ty n sps) es) -> exp_ok e) by (intros e Ne S ty m l X Hm E; apply (selects_ok S e ty m l X Hm); destruct e as [t x|op es|k e cs|c x y|ts t f g a]; try exact E; destruct op; try exact E; destruct (Ne ty0 n spreads es); reflexivity).
  induction e as [t x|op es IH|k e cs _ _|c x y _ _ _|ts t f g a _ _] using sexp_ind'; try (apply D; intros; discriminate).
  destruct op; try (apply D; intros; discriminate). intros S ty0 m l X Hm E. rewrite u_expand_arr in E. inversion X as [|S0 op args us t0 X1 Y| | |]; subst. inversion Y; subst. match goal with A : arr_ty _ _ _ _ |- _ => rename A into AT end.
  assert (L : length spreads = length es) by (rewrite (arr_len _ _ _ _ AT), (xtys_len _ _ _ X1); reflexivity). destruct (expands_list es IH S ty0 spreads m l (pieces_in _ _ _ _ _ _ AT X1) L Hm E) as [Ll V]. split; [exact Ll|]. intros k e' N.
  apply (elem_weaken _ _ _ _ _ _ k _ (V _ _ N)); [cbn [flat_map eids]; rewrite idlist_flat, app_nil_r; apply incl_refl|cbn [flat_map slids]; rewrite idlist_flat, app_nil_r; apply incl_refl|].
  intros call rho lg w E2. cbn [pev fst snd] in E2. apply ok_inv in E2 as [[la v] [Ea E2]]. cbn [obnd fst snd] in E2. apply (u_arr _ _ _ _ _ _ L) in Ea as [w' [-> Ea]]. cbn [contrib of_opt obnd] in E2. injection E2 as <- <-. exists la, w'. rewrite !app_nil_r. split; [exact Ea|]. split; [apply sublog_refl|auto].
Qed.
Lemma select_ok : forall S ty n n0 ty0 sps es w k l e', xty S (SOp (OSel ty) [SOp (OArr ty0 n0 sps) es; ul w k]) n -> k <? Z.of_nat n0 = true -> expands sps es = Some l -> nth_error l (Z.to_nat k) = Some e' ->
  better S (SOp (OSel ty) [SOp (OArr ty0 n0 sps) es; ul w k]) e' n.
Proof.
  intros S ty n n0 ty0 sps es w k l e' X Hk E N. inversion X as [|S0 op args us t0 X1 Y| | |]; subst. inversion X1 as [|S1 a r ta tr Xa Xr]; subst. inversion Xr as [|S2 b r2 tb tr2 Xb Xr2]; subst. inversion Xr2; subst. inversion Y; subst. match goal with A : Z.of_nat _ <= _ |- _ => rename A into Hn end.
  inversion Xa as [|S0 op args us t0 X2 Y2| | |]; subst. inversion Y2; subst. match goal with A : arr_ty _ _ _ _ |- _ => rename A into AT end. assert (L : length sps = length es) by (rewrite (arr_len _ _ _ _ AT), (xtys_len _ _ _ X2); reflexivity).
  destruct (expands_list es (proj2 (Forall_forall _ es) (fun e _ => expand_all e)) S n sps _ l (pieces_in _ _ _ _ _ _ AT X2) L Hn E) as [_ V]. destruct (V _ _ N) as [Xe [I [J W]]]. split; [exact Xe|]. split.
  - unfold fewer. cbn [eids slids ul idlist]. rewrite !idlist_flat, !app_nil_r. auto.
  - intros call rho K R lg v Ev. rewrite u_seval_op, u_el_cons in Ev. apply ok_inv in Ev as [[la vs] [Ea Ev]]. apply ok_inv in Ea as [[l1 va] [E1 Ea]]. cbn [sevals eval_list seval ul obnd fst snd sem_op map] in Ea. injection Ea as <- <-. apply (u_arr _ _ _ _ _ _ L) in E1 as [w' [-> E1]]. cbn [fst snd sem_op] in Ev. destruct (0 <=? k); [|discriminate Ev]. apply ok_inv in Ev as [v' [Eo Ev]]. injection Ev as <- <-.
    destruct (W call rho K R _ _ E1) as [lg' [u [A [B C]]]]. rewrite A in Eo. injection Eo as <-. exists lg'. split; [exact B|]. rewrite !app_nil_r. exact C.
Qed.
End TPropArr.
