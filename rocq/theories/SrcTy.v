(** Types of the programs of Src.v; evaluation respects them. *)
From Coq Require Import String Ascii.
From Coq Require Import ZArith NArith List Bool Lia.
From Verif Require Import PField Interp Bits Zir CgProg UintOpt Str Abi Typed Flatten FlattenOps FlattenSim FlattenRun Writes Redefine WritesVal WritesExp Src.
Import ListNotations.
Open Scope Z_scope.

Section SrcTy.
Context {PF : PrimeField}.

Definition rctx := rid -> option cty.
Definition cput (S : rctx) (x : rid) (t : cty) : rctx := fun y => if rid_eqb y x then Some t else S y.
Definition U32 : cty := CUint W32.
Inductive par_ty : pkind -> cty -> cty -> Prop :=
| PKPow : par_ty KPow CField CField
| PKShl : forall w, par_ty (KShl w) (CUint w) (CUint w)
| PKShr : forall w, par_ty (KShr w) (CUint w) (CUint w)
| PKRep : forall ty n, par_ty (KRep ty n) ty (CArray ty n)
| PKSlice : forall ty m n, par_ty (KSlice ty m n) (CArray ty m) (CArray ty n).
Inductive xty : rctx -> sexp -> cty -> Prop :=
| XId : forall S t x, S x = Some t -> xty S (SId t x) t
| XOp : forall S op args ts t, xtys S args ts -> op_ty op ts t -> xty S (SOp op args) t
| XPar : forall S k e cs te t us, xty S e te -> xtys S cs us -> Forall (fun u => u = U32) us -> par_ty k te t -> xty S (SPar k e cs) t
| XCond : forall S c x y t, xty S c CBool -> xty S x t -> xty S y t -> xty S (SCond c x y) t
| XCall : forall S ts t f gens args us, xtys S gens us -> Forall (fun u => u = U32) us -> xtys S args ts -> xty S (SCall ts t f gens args) t
with xtys : rctx -> list sexp -> list cty -> Prop :=
| XNil : forall S, xtys S [] []
| XCons : forall S e r t ts, xty S e t -> xtys S r ts -> xtys S (e :: r) (t :: ts).
Scheme xty_m := Minimality for xty Sort Prop with xtys_m := Minimality for xtys Sort Prop.
Combined Scheme xty_mut from xty_m, xtys_m.
(** a path of accesses leads from a part of the first type to a part of the second *)
Inductive xpath (S : rctx) : cty -> list sacc -> cty -> Prop :=
| XPnil : forall t, xpath S t [] t
| XPsel : forall ty n i r t, Z.of_nat n < 2 ^ 32 -> xty S i U32 -> xpath S ty r t -> xpath S (CArray ty n) (SASel i :: r) t
| XPmem : forall ms m tm r t a b, ms = a ++ (m, tm) :: b -> ~ In m (map fst a) -> xpath S tm r t -> xpath S (CStruct ms) (SAMem m :: r) t
| XPelt : forall ts k tk r t, nth_error ts k = Some tk -> xpath S tk r t -> xpath S (CTuple ts) (SAElt k :: r) t.
(** A variable keeps its type when it is assigned again. The variables defined in the body of a loop are not visible after it. *)
Definition newv (S : rctx) (x : rid) (t : cty) : Prop := S x = None \/ S x = Some t.
Inductive xsty : rctx -> sstmt -> rctx -> Prop :=
| XDef : forall S x t e, good_ty t -> newv S x t -> xty S e t -> xsty S (SDef x t e) (cput S x t)
| XSet : forall S x t p e te, S x = Some t -> good_ty t -> xpath S t p te -> xty S e te -> xsty S (SSet x t p e) S
| XAssert : forall S e err, xty S e CBool -> xsty S (SAssert e err) S
| XLog : forall S fmt args ts, xtys S args ts -> xsty S (SLog fmt args) S
| XEmb : forall S x t em args ts, newv S x t -> xtys S args ts -> emb_ty em ts t -> xsty S (SEmb x t em args) (cput S x t)
| XFor : forall S S1 x a b body, newv S x U32 -> xty S a U32 -> xty S b U32 -> xstys (cput S x U32) body S1 -> xsty S (SFor x a b body) S
with xstys : rctx -> list sstmt -> rctx -> Prop :=
| XSnil : forall S, xstys S [] S
| XScons : forall S S1 S2 s r, xsty S s S1 -> xstys S1 r S2 -> xstys S (s :: r) S2.
Scheme xsty_m := Minimality for xsty Sort Prop with xstys_m := Minimality for xstys Sort Prop.
Combined Scheme xsty_mut from xsty_m, xstys_m.
Fixpoint cbind (S : rctx) (ps : list (rid * cty)) : rctx := match ps with [] => S | p :: r => cbind (cput S (fst p) (snd p)) r end.
Definition fun_ctx (gens : list nat) (params : list (nat * cty)) : rctx :=
  cbind (cbind (fun _ => None) (map (fun q => (src (fst q), snd q)) params)) (map (fun g => (src g, U32)) gens).
Definition fun_ok (gs : list Z) (ts : list cty) (t : cty) (d : sfun) : Prop :=
  match d with
  | Here gens params body ret => length gens = length gs /\ map snd params = ts /\ Forall good_ty ts /\ NoDup (map fst params ++ gens) /\
      exists S, xstys (fun_ctx gens params) body S /\ xty S ret t
  | Flat em t' => t' = t /\ emb_ty em ts t
  end.
Definition table_ok (funs : ftable) : Prop := forall f gs ts t d, funs f gs ts t = Some d -> fun_ok gs ts t d.

(** ** Evaluation respects types *)
Definition rok (S : rctx) (rho : renv) : Prop := forall y t, S y = Some t -> exists v, rho y = Some v /\ has_type v t.
Definition call_ok (call : caller) : Prop := forall f gs ts t vs lg v, Forall2 has_type vs ts -> Forall (fun g => 0 <= g < 2 ^ 32) gs -> call f gs ts t vs = Ok (lg, v) -> has_type v t.
Lemma rok_put : forall S rho x t v, rok S rho -> has_type v t -> rok (cput S x t) (rupd rho x v).
Proof. intros S rho x t v R T y u. unfold cput, rupd. destruct (rid_eqb y x); [intros [= <-]; exists v; auto|apply R]. Qed.
Lemma rok_same : forall S rho x t v, rok S rho -> S x = Some t -> has_type v t -> rok S (rupd rho x v).
Proof. intros S rho x t v R E T y u Y. unfold rupd. destruct (rid_eqb y x) eqn:Q; [apply rid_eqb_ok in Q as ->; rewrite E in Y; injection Y as <-; exists v; auto|apply R; exact Y]. Qed.
Lemma u_el_cons : forall call rho e r, sevals call rho (e :: r) = obnd (seval call rho e) (fun a => obnd (sevals call rho r) (fun b => Ok (fst a ++ fst b, snd a :: snd b))).
Proof. reflexivity. Qed.
Lemma nums_ok : forall vs us ns, Forall2 has_type vs us -> Forall (fun u => u = U32) us -> nums vs = Some ns -> vs = map (VUint W32) ns /\ Forall (fun g => 0 <= g < 2 ^ 32) ns.
Proof.
  intros vs us ns H. revert ns. induction H as [|v u vs us T H IH]; intros ns U E.
  - injection E as <-. auto.
  - inversion U; subst. apply type_uint in T as [n [-> R]]. unfold nums in E. cbn [map opt_list] in E. change (opt_list (map _ vs)) with (nums vs) in E. destruct (nums vs) as [l|] eqn:N; [|discriminate E]. injection E as <-. destruct (IH l) as [-> F]; [assumption|reflexivity|]. split; [reflexivity|constructor; assumption].
Qed.
Lemma nums_defined : forall vs us, Forall2 has_type vs us -> Forall (fun u => u = U32) us -> exists ns, nums vs = Some ns.
Proof.
  intros vs us H. induction H as [|v u vs us T H IH]; intros U; [exists []; reflexivity|]. inversion U; subst. apply type_uint in T as [n [-> _]]. destruct IH as [l E]; [assumption|]. exists (n :: l). unfold nums in *. cbn [map opt_list]. rewrite E. reflexivity.
Qed.
Lemma par_typed : forall k te t ns op v, par_ty k te t -> par_op k ns = Some op -> has_type v te -> op_ty op [te] t.
Proof.
  intros k te t ns op v P E T. destruct P; cbn [par_op] in E.
  - destruct ns as [|a [|]]; try discriminate E. injection E as <-. constructor.
  - destruct ns as [|a [|]]; try discriminate E. injection E as <-. constructor.
  - destruct ns as [|a [|]]; try discriminate E. injection E as <-. constructor.
  - destruct ns as [|a [|]]; try discriminate E. destruct (a =? Z.of_nat n); [|discriminate E]. injection E as <-. constructor.
  - destruct ns as [|a [|b [|]]]; try discriminate E. destruct ((0 <=? a) && (a <=? b) && (b <=? Z.of_nat m) && (b - a =? Z.of_nat n)) eqn:Q; [|discriminate E]. injection E as <-. rewrite !andb_true_iff, !Z.leb_le, Z.eqb_eq in Q. replace n with (Z.to_nat b - Z.to_nat a)%nat by lia. constructor. lia.
Qed.
Lemma eval_typed : forall call, call_ok call ->
  (forall S e t, xty S e t -> forall rho lg v, rok S rho -> seval call rho e = Ok (lg, v) -> has_type v t) /\
  (forall S es ts, xtys S es ts -> forall rho lg vs, rok S rho -> sevals call rho es = Ok (lg, vs) -> Forall2 has_type vs ts).
Proof.
  intros call CO. apply xty_mut.
  - intros S t x E rho lg v R H. cbn [seval] in H. destruct (R _ _ E) as [u [U T]]. rewrite U in H. injection H as <- <-. exact T.
  - intros S op args ts t _ IH Y rho lg v R H. cbn [seval] in H. apply ok_inv in H as [[la vs] [Ea H]]. apply ok_inv in H as [u [Eo H]]. injection H as <- <-. pose proof (op_typed op ts t vs (map is_slit args) Y (IH _ _ _ R Ea)) as Q. cbn [snd] in Eo. rewrite Eo in Q. exact Q.
  - intros S k e cs te t us _ IH _ IHs U P rho lg v R H. cbn [seval] in H. apply ok_inv in H as [[la ve] [Ea H]]. apply ok_inv in H as [[lb vs] [Eb H]]. cbn [fst snd] in H. apply ok_inv in H as [ns [En H]]. apply ok_inv in H as [op [Eo H]]. apply ok_inv in H as [u [Es H]]. injection H as <- <-.
    destruct (par_op k ns) as [op'|] eqn:Ep; [|discriminate Eo]. injection Eo as ->. pose proof (IH _ _ _ R Ea) as Te. pose proof (par_typed _ _ _ _ _ _ P Ep Te) as Y. pose proof (op_typed op [te] t [ve] [] Y ltac:(constructor; [exact Te|constructor])) as Q. rewrite Es in Q. exact Q.
  - intros S c x y t _ IHc _ IHx _ IHy rho lg v R H. cbn [seval] in H. apply ok_inv in H as [[la vc] [Ea H]]. apply ok_inv in H as [[lb vx] [Eb H]]. apply ok_inv in H as [[ld vy] [Ed H]]. cbn [fst snd] in H. destruct vc as [| |k| | |]; try discriminate H. injection H as <- <-. destruct k; [exact (IHx _ _ _ R Eb)|exact (IHy _ _ _ R Ed)].
  - intros S ts t f gens args us _ IHg U _ IHa rho lg v R H. cbn [seval] in H. apply ok_inv in H as [[lg1 gv] [Eg H]]. apply ok_inv in H as [[la vs] [Ea H]]. cbn [fst snd] in H. apply ok_inv in H as [ns [En H]]. apply ok_inv in H as [[lr r] [Er H]]. cbn [fst snd] in H. injection H as <- <-.
    destruct (nums gv) as [ns'|] eqn:N; [|discriminate En]. injection En as ->. destruct (nums_ok _ _ _ (IHg _ _ _ R Eg) U N) as [_ F]. exact (CO _ _ _ _ _ _ _ (IHa _ _ _ R Ea) F Er).
  - intros S rho lg vs R H. injection H as <- <-. constructor.
  - intros S e r t ts _ IH _ IHs rho lg vs R H. rewrite u_el_cons in H. apply ok_inv in H as [[la v] [Ea H]]. apply ok_inv in H as [[lb ws] [Eb H]]. cbn [fst snd] in H. injection H as <- <-. constructor; [exact (IH _ _ _ R Ea)|exact (IHs _ _ _ R Eb)].
Qed.
Lemma path_typed : forall call, call_ok call -> forall S t p te, xpath S t p te -> forall rho lg ps, rok S rho -> ssteps call rho p = Ok (lg, ps) -> step_ty t ps te.
Proof.
  intros call CO S t p te H. induction H as [t|ty n i r t N Y H IH|ms m tm r t a b E N H IH|ts k tk r t E H IH]; intros rho lg ps R X; cbn [ssteps] in X.
  - injection X as <- <-. constructor.
  - apply ok_inv in X as [[la vi] [Ea X]]. apply ok_inv in X as [[lb qs] [Eb X]]. cbn [fst snd] in X. destruct vi; try discriminate X. injection X as <- <-. constructor; eauto.
  - apply ok_inv in X as [[lb qs] [Eb X]]. injection X as <- <-. econstructor; eauto.
  - apply ok_inv in X as [[lb qs] [Eb X]]. injection X as <- <-. econstructor; eauto.
Qed.
Lemma put_typed : forall t ps te v new v', step_ty t ps te -> has_type v t -> has_type new te -> put ps new v = Some v' -> has_type v' t.
Proof. intros t ps te v new v' Y Tv Tn P. pose proof (put_inb t ps te Y v new v' Tv P) as Ib. destruct (put_flat t ps te Y v Tv Ib) as [a [o [c [_ [_ [_ Q]]]]]]. destruct (Q new Tn) as [w [W [T _]]]. rewrite W in P. injection P as <-. exact T. Qed.
Lemma emb_typed : forall em ts t vs v, emb_ty em ts t -> Forall2 has_type vs ts -> sem_emb em vs = Ok v -> has_type v t.
Proof. intros em ts t vs v Y T E. pose proof (emb_ok em ts t vs Y T) as Q. rewrite E in Q. tauto. Qed.
Lemma u_ex_cons : forall call rho s r, sexecs call rho (s :: r) = obnd (sexec call rho s) (fun a => obnd (sexecs call (snd a) r) (fun b => Ok (fst a ++ fst b, snd b))).
Proof. reflexivity. Qed.
(** a statement leaves the variables of the context before it with values of their types *)
Definition subctx (S S' : rctx) : Prop := forall y t, S y = Some t -> S' y = Some t.
Lemma sub_put : forall S x t, newv S x t -> subctx S (cput S x t).
Proof. intros S x t N y u Y. unfold cput. destruct (rid_eqb y x) eqn:Q; [apply rid_eqb_ok in Q as ->; destruct N as [N|N]; rewrite N in Y; [discriminate Y|injection Y as <-; reflexivity]|exact Y]. Qed.
Lemma rok_sub : forall S S' rho, subctx S S' -> rok S' rho -> rok S rho.
Proof. intros S S' rho H R y t E. apply R, H, E. Qed.
Lemma sub_trans : forall A B C, subctx A B -> subctx B C -> subctx A C.
Proof. intros A B C H K y t E. apply K, H, E. Qed.
Lemma stys_sub : (forall S s S1, xsty S s S1 -> subctx S S1) /\ (forall S ss S1, xstys S ss S1 -> subctx S S1).
Proof.
  apply xsty_mut.
  - intros. apply sub_put; assumption.
  - intros S x t p e te _ _ _ _ y u Y. exact Y.
  - intros S e err _ y u Y. exact Y.
  - intros S fmt args ts _ y u Y. exact Y.
  - intros. apply sub_put; assumption.
  - intros S S1 x a b body _ _ _ _ _ y u Y. exact Y.
  - intros S y u Y. exact Y.
  - intros S S1 S2 s r _ H1 _ H2. exact (sub_trans _ _ _ H1 H2).
Qed.
Definition for_steps (call : caller) (x : rid) (body : list sstmt) := exec_list (fun rho k => sexecs call (rupd rho x (VUint W32 k)) body).
Lemma u_for : forall call rho x a b body, sexec call rho (SFor x a b body) = obnd (seval call rho a) (fun a => obnd (seval call rho b) (fun b =>
  match snd a, snd b with VUint _ i, VUint _ j => obnd (for_steps call x body rho (zrange i j)) (fun r => Ok (fst a ++ fst b ++ fst r, snd r)) | _, _ => Stuck end)).
Proof. reflexivity. Qed.
Lemma u_for_cons : forall call x body rho k r, for_steps call x body rho (k :: r) = obnd (sexecs call (rupd rho x (VUint W32 k)) body) (fun a => obnd (for_steps call x body (snd a) r) (fun b => Ok (fst a ++ fst b, snd b))).
Proof. reflexivity. Qed.
Lemma zrange_in : forall a b k, In k (zrange a b) -> a <= k < b.
Proof. intros a b k H. unfold zrange in H. apply in_map_iff in H as [n [<- I]]. apply in_seq in I. lia. Qed.
Lemma exec_typed : forall call, call_ok call ->
  (forall S s S1, xsty S s S1 -> forall rho lg rho1, rok S rho -> sexec call rho s = Ok (lg, rho1) -> rok S1 rho1) /\
  (forall S ss S1, xstys S ss S1 -> forall rho lg rho1, rok S rho -> sexecs call rho ss = Ok (lg, rho1) -> rok S1 rho1).
Proof.
  intros call CO. destruct (eval_typed call CO) as [TE TES]. apply xsty_mut.
  - intros S x t e G N Y rho lg rho1 R H. cbn [sexec] in H. apply ok_inv in H as [[la v] [Ea H]]. injection H as <- <-. apply rok_put; [exact R|exact (TE _ _ _ Y _ _ _ R Ea)].
  - intros S x t p e te E G P Y rho lg rho1 R H. cbn [sexec] in H. apply ok_inv in H as [[la v] [Ea H]]. apply ok_inv in H as [[lp ps] [Ep H]]. apply ok_inv in H as [o [Eo H]]. apply ok_inv in H as [v' [Ev H]]. cbn [fst snd] in *. injection H as <- <-.
    destruct (rho x) as [o'|] eqn:Ex; [|discriminate Eo]. injection Eo as ->. destruct (put ps v o) as [w|] eqn:Ew; [|discriminate Ev]. injection Ev as ->. destruct (R _ _ E) as [o2 [Q T]]. rewrite Ex in Q. injection Q as <-.
    apply rok_same with t; [exact R|exact E|]. exact (put_typed _ _ _ _ _ _ (path_typed call CO _ _ _ _ P _ _ _ R Ep) T (TE _ _ _ Y _ _ _ R Ea) Ew).
  - intros S e err Y rho lg rho1 R H. cbn [sexec] in H. apply ok_inv in H as [[la v] [Ea H]]. cbn [fst snd] in H. destruct v as [| |[]| | |]; try discriminate H. injection H as <- <-. exact R.
  - intros S fmt args ts Y rho lg rho1 R H. cbn [sexec] in H. apply ok_inv in H as [[la v] [Ea H]]. injection H as <- <-. exact R.
  - intros S x t em args ts N Y Em rho lg rho1 R H. cbn [sexec] in H. apply ok_inv in H as [[la vs] [Ea H]]. apply ok_inv in H as [v [Ev H]]. cbn [fst snd] in *. injection H as <- <-. apply rok_put; [exact R|]. exact (emb_typed _ _ _ _ _ Em (TES _ _ _ Y _ _ _ R Ea) Ev).
  - intros S S1 x a b body N Ya Yb Yl IH rho lg rho1 R H. rewrite u_for in H. apply ok_inv in H as [[la va] [Ea H]]. apply ok_inv in H as [[lb vb] [Eb H]]. cbn [fst snd] in H.
    pose proof (TE _ _ _ Ya _ _ _ R Ea) as Ta. pose proof (TE _ _ _ Yb _ _ _ R Eb) as Tb. apply type_uint in Ta as [i [-> Ri]]. apply type_uint in Tb as [j [-> Rj]].
    apply ok_inv in H as [[lr r] [Er H]]. cbn [fst snd] in H. injection H as <- <-. assert (I : forall k, In k (zrange i j) -> 0 <= k < 2 ^ 32) by (intros k K; apply zrange_in in K; change (bits_of W32) with 32 in *; lia).
    clear - N Yl IH R Er I. revert rho lr r R Er I. generalize (zrange i j). intros l. induction l as [|k l IHl]; intros rho lr r R Er I; [injection Er as <- <-; exact R|]. rewrite u_for_cons in Er. apply ok_inv in Er as [[l1 r1] [E1 Er]]. apply ok_inv in Er as [[l2 r2] [E2 Er]]. cbn [fst snd] in *. injection Er as <- <-.
    apply (IHl r1 l2 r2); [|exact E2|intros q Q; apply I; right; exact Q]. apply (rok_sub S S1); [apply (sub_trans S (cput S x U32) S1 (sub_put _ _ _ N)); apply (proj2 stys_sub _ _ _ Yl)|].
    apply (IH (rupd rho x (VUint W32 k)) l1 r1); [|exact E1]. apply rok_put; [exact R|]. split; [reflexivity|]. apply I. left. reflexivity.
  - intros S rho lg rho1 R H. injection H as <- <-. exact R.
  - intros S S1 S2 s r _ IH _ IHs rho lg rho1 R H. rewrite u_ex_cons in H. apply ok_inv in H as [[l1 r1] [E1 H]]. apply ok_inv in H as [[l2 r2] [E2 H]]. cbn [fst snd] in *. injection H as <- <-. exact (IHs _ _ _ (IH _ _ _ R E1) E2).
Qed.
Lemma rbind_ok : forall ps vs S rho, rok S rho -> Forall2 has_type vs (map snd ps) -> rok (cbind S ps) (rbind rho (map fst ps) vs).
Proof. induction ps as [|p ps IH]; intros vs S rho R H; inversion H; subst; [exact R|]. cbn [map cbind rbind]. apply IH; [apply rok_put; assumption|assumption]. Qed.
Lemma fun_env_ok : forall gens params gs vs, Forall2 has_type vs (map snd params) -> length gens = length gs -> Forall (fun g => 0 <= g < 2 ^ 32) gs ->
  rok (fun_ctx gens params) (rbind (rbind (fun _ => None) (map (fun q => src (fst q)) params) vs) (map src gens) (map (VUint W32) gs)).
Proof.
  intros gens params gs vs T L F. unfold fun_ctx. replace (map src gens) with (map (@fst rid cty) (map (fun g => (src g, U32)) gens)) by (rewrite map_map; reflexivity).
  apply rbind_ok.
  - replace (map (fun q : nat * cty => src (fst q)) params) with (map (@fst rid cty) (map (fun q => (src (fst q), snd q)) params)) by (rewrite map_map; reflexivity). apply rbind_ok; [intros y t Y; discriminate Y|]. rewrite map_map. exact T.
  - rewrite map_map. cbn [snd]. clear - L F. revert gs L F. induction gens as [|g gens IH]; intros [|z gs] L F; try discriminate L; [constructor|]. inversion F; subst. cbn [map]. constructor; [split; [reflexivity|assumption]|]. apply IH; [injection L; auto|assumption].
Qed.
Theorem scall_ok : forall funs, table_ok funs -> forall n, call_ok (scall funs n).
Proof.
  intros funs T. induction n as [|n IH]; intros f gs ts t vs lg v Hv Hg H; [discriminate H|]. cbn [scall] in H. destruct (funs f gs ts t) as [[gens params body ret|em t']|] eqn:E; [| |discriminate H].
  - pose proof (T _ _ _ _ _ E) as [Lg [Ep [_ [_ [S [Y1 Y2]]]]]]. destruct (_ && _); [|discriminate H]. subst ts. apply ok_inv in H as [[l1 r1] [E1 H]]. apply ok_inv in H as [[l2 r2] [E2 H]]. cbn [fst snd] in *. injection H as <- <-.
    apply (proj1 (eval_typed _ IH) _ _ _ Y2 _ _ _ (proj2 (exec_typed _ IH) _ _ _ Y1 _ _ _ (fun_env_ok gens params gs vs Hv Lg Hg) E1) E2).
  - apply ok_inv in H as [u [Eu H]]. injection H as <- <-. pose proof (T _ _ _ _ _ E) as [-> Em]. exact (emb_typed _ _ _ _ _ Em Hv Eu).
Qed.
Lemma nocall_ok : call_ok nocall.
Proof. intros f gs ts t vs lg v _ _ H. discriminate H. Qed.
End SrcTy.
