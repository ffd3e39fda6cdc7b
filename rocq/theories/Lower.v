(** From the programs of Src.v, reduced and propagated, to those of Writes.v: the same programs without calls, loops and constant arguments
    that are not literals.
    Models: zokrates_analysis/src/constant_argument_checker.rs l.62-110 (the amount of a shift must be a literal), flatten_complex_types.rs
    (a reduced program has neither calls nor loops: unreachable!() otherwise; the bounds of slices are constants, l.470-530 and 640-700),
    codegen/lib.rs:2016 (exponents are literals).
    Simplifications: the check of the constant arguments is made before VariableWriteRemover (it comes just after it: that pass does not
    change these arguments); identifiers are numbered; BooleanArrayComparator, which comes between them, is not applied (C36). *)
From Coq Require Import String Ascii.
From Coq Require Import ZArith NArith List Bool Lia.
From Verif Require Import PField Interp Bits Zir CgProg UintOpt Str Abi Typed Flatten FlattenOps FlattenSim FlattenRun FlattenEnd Enforce Writes Redefine WritesVal WritesExp WritesChoose WritesRun WritesEnd WritesWf Bounds Src SrcTy TProp TPropOk.
Import ListNotations.
Open Scope Z_scope.

Section Lower.
Context {PF : PrimeField}.

(** ** Identifiers *)
Definition pair2 (a b : Z) : Z := (a + b) * (a + b + 1) + 2 * b.
Lemma pair2_inj : forall a b c d, 0 <= a -> 0 <= b -> 0 <= c -> 0 <= d -> pair2 a b = pair2 c d -> a = c /\ b = d.
Proof.
  intros a b c d A B C D H. unfold pair2 in H. assert (E : a + b = c + d).
  { destruct (Z.lt_trichotomy (a + b) (c + d)) as [L|[L|L]]; [exfalso|exact L|exfalso]; nia. }
  rewrite E in H. lia.
Qed.
Lemma pair2_nonneg : forall a b, 0 <= a -> 0 <= b -> 0 <= pair2 a b.
Proof. intros a b A B. unfold pair2. nia. Qed.
Definition core_code (c : core) : Z := match c with Name x => 1 + Z.of_nat x | CallId => 0 end.
Definition code (x : rid) : Z := pair2 (Z.of_nat (fst (fst x))) (pair2 (core_code (snd (fst x))) (Z.of_nat (snd x))).
Lemma core_nonneg : forall c, 0 <= core_code c.
Proof. intros [x|]; cbn [core_code]; lia. Qed.
Lemma code_nonneg : forall x, 0 <= code x.
Proof. intros x. unfold code. apply pair2_nonneg; [lia|]. apply pair2_nonneg; [apply core_nonneg|lia]. Qed.
Lemma code_inj : forall x y, code x = code y -> x = y.
Proof.
  intros [[f c] v] [[g d] w] H. unfold code in H. cbn [fst snd] in H. assert (N : forall c v, 0 <= pair2 (core_code c) (Z.of_nat v)) by (intros; apply pair2_nonneg; [apply core_nonneg|lia]).
  apply pair2_inj in H as [A H]; try apply N; try lia. apply pair2_inj in H as [B H]; try apply core_nonneg; try lia. apply Nat2Z.inj in A, H. subst. f_equal. f_equal. destruct c, d; cbn [core_code] in B; try lia; [f_equal; lia|reflexivity].
Qed.
Lemma code_eqb : forall x y, (code x =? code y) = rid_eqb x y.
Proof.
  intros x y. destruct (rid_eqb x y) eqn:E; [apply rid_eqb_ok in E as ->; apply Z.eqb_refl|]. apply Z.eqb_neq. intros H. apply code_inj in H as ->. rewrite rid_eqb_refl in E. discriminate E.
Qed.

(** ** Programs *)
Definition num_lit (e : sexp) : option Z := match e with SOp (OUVal _ n) [] => Some n | _ => None end.
Fixpoint low (e : sexp) : option texp :=
  match e with
  | SId t x => Some (TId t (code x))
  | SOp op args => match mapO low args with Some l => Some (TOp op l) | None => None end
  | SPar k e cs => match opt_list (map num_lit cs) with
                   | Some ns => match par_op k ns, low e with Some op, Some e' => Some (TOp op [e']) | _, _ => None end
                   | None => None
                   end
  | SCond c x y => match low c, low x, low y with Some a, Some b, Some d => Some (TCond a b d) | _, _, _ => None end
  | SCall _ _ _ _ _ => None
  end.
Definition lows := mapO low.
Definition low_acc (a : sacc) : option access := match a with SASel i => option_map ASel (low i) | SAMem m => Some (AMem m) | SAElt k => Some (AElt k) end.
Definition low_stmt (s : sstmt) : option wstmt :=
  match s with
  | SDef x t e => option_map (fun e => WS (TDef (code x) t e)) (low e)
  | SSet x t p e => match mapO low_acc p, low e with Some q, Some e' => Some (WSet (code x) t q e') | _, _ => None end
  | SAssert e err => option_map (fun e => WS (TAssert e err)) (low e)
  | SLog fmt args => option_map (fun l => WS (TLog fmt l)) (lows args)
  | SEmb x t em args => option_map (fun l => WS (TEmb (code x) t em l)) (lows args)
  | SFor _ _ _ _ => None
  end.
Definition lower (p : sprog) : option wprog :=
  match mapO low_stmt (sbody p), low (sret p) with
  | Some l, Some e => Some (mkWProg (map (fun q => (code (fst (fst q)), snd (fst q), snd q)) (sargs p)) l e (sretty p))
  | _, _ => None
  end.

(** ** The same meaning *)
Lemma u_mapO : forall A B (f : A -> option B) a r, mapO f (a :: r) = match f a with Some b => match mapO f r with Some s => Some (b :: s) | None => None end | None => None end.
Proof. intros. change (mapO f (a :: r)) with (obind (f a) (fun b => obind (mapO f r) (fun s => Some (b :: s)))). destruct (f a); [|reflexivity]. cbn [obind]. destruct (mapO f r); reflexivity. Qed.
Definition erel (rho : renv) (r : tenv) : Prop := forall x, r (code x) = rho x.
Lemma erel_upd : forall rho r x v, erel rho r -> erel (rupd rho x v) (tupd r (code x) v).
Proof. intros rho r x v H y. unfold rupd, tupd. rewrite code_eqb. destruct (rid_eqb y x); [reflexivity|apply H]. Qed.
Lemma low_lit : forall e e', low e = Some e' -> is_tlit e' = is_slit e.
Proof.
  intros e e' H. destruct e as [t x|op args|k e cs|c x y|]; cbn [low] in H.
  - injection H as <-. reflexivity.
  - destruct args as [|a r]; [injection H as <-; reflexivity|]. rewrite u_mapO in H. destruct (low a); [|discriminate H]. destruct (mapO low r); [|discriminate H]. injection H as <-. destruct op; reflexivity.
  - destruct (opt_list (map num_lit cs)) as [ns|]; [|discriminate H]. destruct (par_op k ns) as [op|] eqn:P; [|discriminate H]. destruct (low e); [|discriminate H]. injection H as <-. destruct op; reflexivity.
  - destruct (low c); [|discriminate H]. destruct (low x); [|discriminate H]. destruct (low y); [|discriminate H]. injection H as <-. reflexivity.
  - discriminate H.
Qed.
Lemma lows_lit : forall l l', lows l = Some l' -> map is_tlit l' = map is_slit l.
Proof. induction l as [|e r IH]; intros l' H; [injection H as <-; reflexivity|]. unfold lows in H. rewrite u_mapO in H. destruct (low e) as [e'|] eqn:E; [|discriminate H]. change (mapO low r) with (lows r) in H. destruct (lows r) as [r'|] eqn:R; [|discriminate H]. injection H as <-. cbn [map]. rewrite (low_lit _ _ E), (IH r' eq_refl). reflexivity. Qed.
Lemma lits_eval : forall call rho cs ns, opt_list (map num_lit cs) = Some ns -> exists vs, sevals call rho cs = Ok ([], vs) /\ nums vs = Some ns.
Proof.
  intros call rho cs. induction cs as [|c cs IH]; intros ns H; cbn [map opt_list] in H; [injection H as <-; exists []; split; reflexivity|]. destruct (num_lit c) as [n|] eqn:E; [|discriminate H]. destruct (opt_list (map num_lit cs)) as [l|] eqn:L; [|discriminate H]. injection H as <-. destruct (IH l eq_refl) as [vs [V1 V2]].
  unfold num_lit in E. destruct c as [|op args| | |]; try discriminate E. destruct op; try discriminate E. destruct args; [|discriminate E]. injection E as ->. exists (VUint w n :: vs). split; [rewrite u_el_cons; cbn [seval eval_list obnd sem_op fst snd]; rewrite V1; reflexivity|]. unfold nums in *. cbn [map opt_list]. rewrite V2. reflexivity.
Qed.
Lemma par_flags : forall k ns op fl vs, par_op k ns = Some op -> sem_op op fl vs = sem_op op [] vs.
Proof.
  intros k ns op fl vs H. destruct k; cbn [par_op] in H; destruct ns as [|a [|b [|]]]; try discriminate H; try (injection H as <-; reflexivity).
  - destruct (a =? Z.of_nat n); [injection H as <-; reflexivity|discriminate H].
  - destruct (_ && _); [injection H as <-; reflexivity|discriminate H].
Qed.
Lemma list_eval : forall rho r l l', Forall (fun e => forall e', low e = Some e' -> teval r e' = seval nocall rho e) l -> lows l = Some l' -> tevals r l' = sevals nocall rho l.
Proof.
  intros rho r l l' H. revert l'. induction H as [|e l He H IH]; intros l' L; [injection L as <-; reflexivity|]. unfold lows in L. rewrite u_mapO in L. destruct (low e) as [e'|] eqn:E; [|discriminate L]. change (mapO low l) with (lows l) in L. destruct (lows l) as [r'|] eqn:R; [|discriminate L]. injection L as <-.
  rewrite u_el_cons. change (tevals r (e' :: r')) with (obnd (teval r e') (fun a => obnd (tevals r r') (fun b => Ok (fst a ++ fst b, snd a :: snd b)))). rewrite (He _ eq_refl), (IH _ eq_refl). reflexivity.
Qed.
Lemma low_eval : forall rho r, erel rho r -> forall e e', low e = Some e' -> teval r e' = seval nocall rho e.
Proof.
  intros rho r R. induction e as [t x|op args IH|k e cs IHe IHc|c x y IHc IHx IHy|ts t g a b IHa IHb] using sexp_ind'; intros e' H; cbn [low] in H.
  - injection H as <-. cbn [teval seval]. rewrite (R x). reflexivity.
  - change (mapO low args) with (lows args) in H. destruct (lows args) as [l|] eqn:L; [|discriminate H]. injection H as <-. change (teval r (TOp op l)) with (obnd (tevals r l) (fun a => obnd (sem_op op (map is_tlit l) (snd a)) (fun v => Ok (fst a, v)))). rewrite (list_eval rho r args l IH L), (lows_lit _ _ L). reflexivity.
  - destruct (opt_list (map num_lit cs)) as [ns|] eqn:N; [|discriminate H]. destruct (par_op k ns) as [op|] eqn:P; [|discriminate H]. destruct (low e) as [e1|] eqn:E; [|discriminate H]. injection H as <-.
    destruct (lits_eval nocall rho cs ns N) as [vs [V1 V2]]. cbn [seval]. change (eval_list (seval nocall rho) cs) with (sevals nocall rho cs). rewrite V1. change (teval r (TOp op [e1])) with (obnd (obnd (teval r e1) (fun a => Ok (fst a ++ [], [snd a]))) (fun a => obnd (sem_op op (map is_tlit [e1]) (snd a)) (fun v => Ok (fst a, v)))).
    rewrite (IHe _ eq_refl). destruct (seval nocall rho e) as [[la va]| |]; try reflexivity. cbn [obnd fst snd]. rewrite V2. cbn [of_opt obnd]. rewrite P. cbn [of_opt obnd]. rewrite (par_flags _ _ _ _ _ P). reflexivity.
  - destruct (low c) as [c1|] eqn:E1; [|discriminate H]. destruct (low x) as [x1|] eqn:E2; [|discriminate H]. destruct (low y) as [y1|] eqn:E3; [|discriminate H]. injection H as <-. cbn [teval seval]. rewrite (IHc _ eq_refl), (IHx _ eq_refl), (IHy _ eq_refl). reflexivity.
  - discriminate H.
Qed.
Lemma lows_eval : forall rho r, erel rho r -> forall l l', lows l = Some l' -> tevals r l' = sevals nocall rho l.
Proof. intros rho r R l l' H. apply list_eval; [|exact H]. apply Forall_forall. intros e _. exact (low_eval rho r R e). Qed.
(** an expression has a value, with no log, or is undefined *)
Lemma op_not_failed : forall op fl vs, @sem_op PF op fl vs <> Failed.
Proof.
  intros op fl vs. destruct op; cbn [sem_op]; repeat (match goal with |- context [match ?x with _ => _ end] => destruct x end; cbn [of_opt obnd]); try (intros H; discriminate H); unfold of_opt; repeat (match goal with |- context [match ?x with _ => _ end] => destruct x end); intros H; discriminate H.
Qed.
Lemma lists_silent : forall rho l, Forall (fun e => seval nocall rho e = Stuck \/ exists v, seval nocall rho e = Ok ([], v)) l -> sevals nocall rho l = Stuck \/ exists vs, sevals nocall rho l = Ok ([], vs).
Proof.
  intros rho l H. induction H as [|e l He H IH]; [right; exists []; reflexivity|]. rewrite u_el_cons. destruct He as [->|[v ->]]; [left; reflexivity|]. cbn [obnd]. destruct IH as [->|[vs ->]]; [left; reflexivity|]. right. exists (v :: vs). reflexivity.
Qed.
Lemma eval_silent : forall rho e, seval nocall rho e = Stuck \/ exists v, seval nocall rho e = Ok ([], v).
Proof.
  intros rho. induction e as [t x|op args IH|k e cs IHe IHc|c x y IHc IHx IHy|ts t g a b IHa IHb] using sexp_ind'; cbn [seval].
  - destruct (rho x) as [v|]; [right; exists v; reflexivity|left; reflexivity].
  - change (eval_list (seval nocall rho) args) with (sevals nocall rho args). destruct (lists_silent rho args IH) as [->|[vs ->]]; [left; reflexivity|]. cbn [obnd fst snd]. pose proof (op_not_failed op (map is_slit args) vs) as Nf. destruct (sem_op op (map is_slit args) vs) as [v| |]; [right; exists v; reflexivity|contradiction Nf; reflexivity|left; reflexivity].
  - destruct IHe as [->|[v ->]]; [left; reflexivity|]. cbn [obnd fst snd]. change (eval_list (seval nocall rho) cs) with (sevals nocall rho cs). destruct (lists_silent rho cs IHc) as [->|[vs ->]]; [left; reflexivity|]. cbn [obnd fst snd]. destruct (nums vs) as [ns|]; [|left; reflexivity]. cbn [of_opt obnd]. destruct (par_op k ns) as [op|]; [|left; reflexivity]. cbn [of_opt obnd].
    pose proof (op_not_failed op [] [v]) as Nf. destruct (sem_op op [] [v]) as [u| |]; [right; exists u; reflexivity|contradiction Nf; reflexivity|left; reflexivity].
  - destruct IHc as [->|[a ->]]; [left; reflexivity|]. cbn [obnd fst snd]. destruct IHx as [->|[b ->]]; [left; reflexivity|]. cbn [obnd fst snd]. destruct IHy as [->|[d ->]]; [left; reflexivity|]. cbn [obnd fst snd]. destruct a as [| |k| | |]; try (left; reflexivity). right. eexists. reflexivity.
  - change (eval_list (seval nocall rho)) with (sevals nocall rho). destruct (lists_silent rho a IHa) as [->|[vs ->]]; [left; reflexivity|]. cbn [obnd fst snd]. destruct (lists_silent rho b IHb) as [->|[ws ->]]; [left; reflexivity|]. cbn [obnd fst snd]. destruct (nums vs) as [ns|]; [|left; reflexivity]. left. reflexivity.
Qed.
Lemma steps_low : forall rho r, erel rho r -> forall p q, mapO low_acc p = Some q -> steps r q = ssteps nocall rho p /\ (ssteps nocall rho p = Stuck \/ exists ps, ssteps nocall rho p = Ok ([], ps)).
Proof.
  intros rho r R. induction p as [|a p IH]; intros q H; [injection H as <-; split; [reflexivity|right; exists []; reflexivity]|]. rewrite u_mapO in H. destruct (low_acc a) as [b|] eqn:E; [|discriminate H]. destruct (mapO low_acc p) as [q'|]; [|discriminate H]. injection H as <-. destruct (IH q' eq_refl) as [A B].
  destruct a as [i|m|k]; cbn [low_acc option_map] in E.
  - destruct (low i) as [i'|] eqn:L; [|discriminate E]. injection E as <-. cbn [steps ssteps]. rewrite (low_eval rho r R i i' L), A. split; [reflexivity|]. destruct (eval_silent rho i) as [->|[v ->]]; [left; reflexivity|]. cbn [obnd]. destruct B as [->|[ps ->]]; [left; reflexivity|]. cbn [obnd fst snd]. destruct v; try (left; reflexivity). right. eexists. reflexivity.
  - injection E as <-. cbn [steps ssteps]. rewrite A. split; [reflexivity|]. destruct B as [->|[ps ->]]; [left; reflexivity|]. right. eexists. reflexivity.
  - injection E as <-. cbn [steps ssteps]. rewrite A. split; [reflexivity|]. destruct B as [->|[ps ->]]; [left; reflexivity|]. right. eexists. reflexivity.
Qed.
(** the same outcome, related environments *)
Definition osim (a : outcome (list (@entry PF) * renv)) (b : outcome (list entry * tenv)) : Prop :=
  match a, b with Ok (l, rho), Ok (m, r) => l = m /\ erel rho r | Failed, Failed => True | Stuck, Stuck => True | _, _ => False end.
Lemma u_xdef : forall r x t e, texec r (TDef x t e) = obnd (teval r e) (fun a => Ok (fst a, tupd r x (snd a))).
Proof. reflexivity. Qed.
Lemma u_xassert : forall r e err, texec r (TAssert e err) = obnd (teval r e) (fun a => match snd a with VBool true => Ok (fst a, r) | VBool false => Failed | _ => Stuck end).
Proof. reflexivity. Qed.
Lemma u_xemb : forall r x t em args, texec r (TEmb x t em args) = obnd (tevals r args) (fun a => obnd (sem_emb em (snd a)) (fun v => Ok (fst a, tupd r x v))).
Proof. reflexivity. Qed.
Lemma u_xlog : forall r fmt args, texec r (TLog fmt args) = obnd (tevals r args) (fun a => Ok (fst a ++ [(fmt, snd a)], r)).
Proof. reflexivity. Qed.
Lemma stmt_low : forall rho r s w, erel rho r -> low_stmt s = Some w -> osim (sexec nocall rho s) (wexec r w).
Proof.
  intros rho r s w R H. destruct s as [x t e|x t p e|e err|fmt args|x t em args|x a b body]; cbn [low_stmt] in H; [| | | | |discriminate H].
  - destruct (low e) as [e'|] eqn:E; [|discriminate H]. injection H as <-. cbn [wexec sexec]. rewrite u_xdef, (low_eval rho r R e e' E). destruct (eval_silent rho e) as [->|[v ->]]; [exact Logic.I|]. cbn [obnd fst snd osim]. split; [reflexivity|apply erel_upd; exact R].
  - destruct (mapO low_acc p) as [q|] eqn:Ep; [|discriminate H]. destruct (low e) as [e'|] eqn:E; [|discriminate H]. injection H as <-. cbn [wexec sexec]. destruct (steps_low rho r R p q Ep) as [A B]. rewrite A, (low_eval rho r R e e' E), (R x). destruct (eval_silent rho e) as [->|[v ->]]; destruct B as [->|[ps ->]]; try exact Logic.I. cbn [obnd fst snd]. destruct (rho x) as [u|]; [|exact Logic.I]. cbn [of_opt obnd]. destruct (put ps v u) as [u'|]; [|exact Logic.I]. cbn [of_put obnd osim]. split; [reflexivity|apply erel_upd; exact R].
  - destruct (low e) as [e'|] eqn:E; [|discriminate H]. injection H as <-. cbn [wexec sexec]. rewrite u_xassert, (low_eval rho r R e e' E). destruct (eval_silent rho e) as [->|[v ->]]; [exact Logic.I|]. cbn [obnd fst snd]. destruct v as [| |[|]| | |]; try exact Logic.I. cbn [osim]. split; [reflexivity|exact R].
  - destruct (lows args) as [l|] eqn:L; [|discriminate H]. injection H as <-. cbn [wexec sexec]. rewrite u_xlog, (lows_eval rho r R args l L). destruct (sevals nocall rho args) as [[la vs]| |]; try exact Logic.I. cbn [obnd fst snd osim]. split; [reflexivity|exact R].
  - destruct (lows args) as [l|] eqn:L; [|discriminate H]. injection H as <-. cbn [wexec sexec]. rewrite u_xemb, (lows_eval rho r R args l L). destruct (sevals nocall rho args) as [[la vs]| |]; try exact Logic.I. cbn [obnd fst snd]. destruct (sem_emb em vs) as [v| |]; try exact Logic.I. cbn [obnd osim]. split; [reflexivity|apply erel_upd; exact R].
Qed.
Lemma stmts_low : forall l w rho r, erel rho r -> mapO low_stmt l = Some w -> osim (sexecs nocall rho l) (wexecs r w).
Proof.
  induction l as [|s l IH]; intros w rho r R H; [injection H as <-; cbn; split; [reflexivity|exact R]|]. rewrite u_mapO in H. destruct (low_stmt s) as [a|] eqn:E; [|discriminate H]. destruct (mapO low_stmt l) as [b|]; [|discriminate H]. injection H as <-. rewrite u_ex_cons. cbn [wexecs]. pose proof (stmt_low rho r s a R E) as Q.
  destruct (sexec nocall rho s) as [[l1 rho1]| |]; destruct (wexec r a) as [[m1 r1]| |]; try (exfalso; exact Q); try exact Logic.I. destruct Q as [<- R1]. cbn [obnd fst snd]. specialize (IH b rho1 r1 R1 eq_refl). destruct (sexecs nocall rho1 l) as [[l2 rho2]| |]; destruct (wexecs r1 b) as [[m2 r2]| |]; try (exfalso; exact IH); try exact Logic.I. destruct IH as [<- R2]. cbn [obnd fst snd osim]. split; [reflexivity|exact R2].
Qed.
Lemma bind_low : forall (ps : list (rid * cty * bool)) vs rho r, erel rho r -> erel (rbind rho (map (fun q => fst (fst q)) ps) vs) (tbind r (map (fun q => (code (fst (fst q)), snd (fst q), snd q)) ps) vs).
Proof. induction ps as [|p ps IH]; intros [|v vs] rho r R; cbn [map rbind tbind]; try exact R. apply IH. cbn [fst]. apply erel_upd. exact R. Qed.
Theorem lower_run : forall p w vs, lower p = Some w -> wrun w vs = srun nocall p vs.
Proof.
  intros p w vs H. unfold lower in H. destruct (mapO low_stmt (sbody p)) as [l|] eqn:L; [|discriminate H]. destruct (low (sret p)) as [e|] eqn:E; [|discriminate H]. injection H as <-. unfold wrun, srun. cbn [wargs wbody wret].
  pose proof (stmts_low _ _ _ _ (bind_low (sargs p) vs (fun _ => None) (fun _ => None) (fun _ => eq_refl)) L) as Q. destruct (sexecs nocall _ (sbody p)) as [[l1 rho1]| |]; destruct (wexecs _ l) as [[m1 r1]| |]; try (exfalso; exact Q); try reflexivity. destruct Q as [<- R]. cbn [obnd fst snd]. rewrite (low_eval _ _ R _ _ E). reflexivity.
Qed.

(** ** The same types *)
Definition crel (S : rctx) (T : tctx) : Prop := forall x t, S x = Some t -> T (code x) = Some t.
Lemma crel_put : forall S T x t, crel S T -> crel (cput S x t) (cupd T (code x) t).
Proof. intros S T x t H y u. unfold cput, cupd. rewrite code_eqb. destruct (rid_eqb y x); [intros E; exact E|apply H]. Qed.
Lemma par_type : forall k te t ns op, par_ty k te t -> par_op k ns = Some op -> op_ty op [te] t.
Proof.
  intros k te t ns op P E. destruct P; cbn [par_op] in E.
  - destruct ns as [|a [|]]; try discriminate E. injection E as <-. constructor.
  - destruct ns as [|a [|]]; try discriminate E. injection E as <-. constructor.
  - destruct ns as [|a [|]]; try discriminate E. injection E as <-. constructor.
  - destruct ns as [|a [|]]; try discriminate E. destruct (a =? Z.of_nat n); [|discriminate E]. injection E as <-. constructor.
  - destruct ns as [|a [|b [|]]]; try discriminate E. destruct ((0 <=? a) && (a <=? b) && (b <=? Z.of_nat m) && (b - a =? Z.of_nat n)) eqn:Q; [|discriminate E]. injection E as <-. rewrite !andb_true_iff, !Z.leb_le, Z.eqb_eq in Q. replace n with (Z.to_nat b - Z.to_nat a)%nat by lia. constructor. lia.
Qed.
Lemma low_typed : (forall S e t, xty S e t -> forall T e', crel S T -> low e = Some e' -> tty T e' t /\ tdefs e' = []) /\ (forall S es ts, xtys S es ts -> forall T es', crel S T -> lows es = Some es' -> ttys T es' ts /\ tdefss es' = []).
Proof.
  apply xty_mut.
  - intros S t x E T e' C H. injection H as <-. split; [apply YId; exact (C _ _ E)|reflexivity].
  - intros S op args ts t _ IH Y T e' C H. cbn [low] in H. change (mapO low args) with (lows args) in H. destruct (lows args) as [l|] eqn:L; [|discriminate H]. injection H as <-. destruct (IH T l C eq_refl) as [A B]. split; [exact (YOp _ _ _ _ _ A Y)|exact B].
  - intros S k e cs te t us _ IH _ _ _ P T e' C H. cbn [low] in H. destruct (opt_list (map num_lit cs)) as [ns|]; [|discriminate H]. destruct (par_op k ns) as [op|] eqn:Ep; [|discriminate H]. destruct (low e) as [e1|] eqn:E; [|discriminate H]. injection H as <-. destruct (IH T e1 C eq_refl) as [A B].
    split; [apply (YOp _ _ _ [te]); [apply YCons; [exact A|apply YNil]|exact (par_type _ _ _ _ _ P Ep)]|]. cbn [tdefs tdefs_list]. rewrite B. reflexivity.
  - intros S c x y t _ IHc _ IHx _ IHy T e' C H. cbn [low] in H. destruct (low c) as [c1|] eqn:E1; [|discriminate H]. destruct (low x) as [x1|] eqn:E2; [|discriminate H]. destruct (low y) as [y1|] eqn:E3; [|discriminate H]. injection H as <-. destruct (IHc T c1 C eq_refl) as [A1 B1]. destruct (IHx T x1 C eq_refl) as [A2 B2]. destruct (IHy T y1 C eq_refl) as [A3 B3]. split; [apply YCond; assumption|]. cbn [tdefs]. rewrite B1, B2, B3. reflexivity.
  - intros S ts t f gens args us _ _ _ _ _ T e' C H. discriminate H.
  - intros S T es' C H. injection H as <-. split; [apply YNil|reflexivity].
  - intros S e r t ts _ IH _ IHr T es' C H. unfold lows in H. rewrite u_mapO in H. destruct (low e) as [e1|]; [|discriminate H]. change (mapO low r) with (lows r) in H. destruct (lows r) as [r1|]; [|discriminate H]. injection H as <-. destruct (IH T e1 C eq_refl) as [A1 B1]. destruct (IHr T r1 C eq_refl) as [A2 B2]. split; [apply YCons; assumption|]. unfold tdefss in *. cbn [tdefs_list]. rewrite B1, B2. reflexivity.
Qed.
Lemma path_low : forall S t p te, xpath S t p te -> forall T q, crel S T -> mapO low_acc p = Some q -> path_ty T t q te /\ pdefs q = [].
Proof.
  intros S t p te H. induction H as [t|ty n i r t N Y H IH|ms m tm r t a b E N H IH|ts k tk r t E H IH]; intros T q C L.
  - injection L as <-. split; [constructor|reflexivity].
  - rewrite u_mapO in L. cbn [low_acc] in L. destruct (low i) as [i'|] eqn:Li; [|discriminate L]. cbn [option_map] in L. destruct (mapO low_acc r) as [r'|]; [|discriminate L]. injection L as <-. destruct (IH T r' C eq_refl) as [A B]. destruct (proj1 low_typed _ _ _ Y T i' C Li) as [A1 B1]. split; [constructor; assumption|]. cbn [pdefs]. rewrite B1, B. reflexivity.
  - rewrite u_mapO in L. cbn [low_acc] in L. destruct (mapO low_acc r) as [r'|]; [|discriminate L]. injection L as <-. destruct (IH T r' C eq_refl) as [A B]. split; [eapply PTmem; eassumption|exact B].
  - rewrite u_mapO in L. cbn [low_acc] in L. destruct (mapO low_acc r) as [r'|]; [|discriminate L]. injection L as <-. destruct (IH T r' C eq_refl) as [A B]. split; [eapply PTelt; eassumption|exact B].
Qed.
(** the variables a statement defines *)
Definition sdef (s : sstmt) : list rid := match s with SDef x _ _ | SEmb x _ _ _ => [x] | _ => [] end.
Lemma stmts_typed : forall l S S1, xstys S l S1 -> forall T w, crel S T -> mapO low_stmt l = Some w -> exists T1, wstys T w T1 /\ crel S1 T1 /\ wdefss w = map code (flat_map sdef l).
Proof.
  induction l as [|s l IH]; intros S S1 X T w C H; inversion X as [|? S2 ? ? ? Xs Xl]; subst; [injection H as <-; exists T; split; [constructor|split; [exact C|reflexivity]]|].
  rewrite u_mapO in H. destruct (low_stmt s) as [a|] eqn:E; [|discriminate H]. destruct (mapO low_stmt l) as [b|]; [|discriminate H]. injection H as <-.
  assert (Q : exists T2, wsty T a T2 /\ crel S2 T2 /\ wdefs a = map code (sdef s)).
  { destruct Xs as [S x t e G N Y|S x t p e te Sx G P Y|S e err Y|S fmt args ts Y|S x t em args ts N Y M|S Sb x a0 b0 body]; cbn [low_stmt] in E.
    - destruct (low e) as [e'|] eqn:L; [|discriminate E]. injection E as <-. destruct (proj1 low_typed _ _ _ Y T e' C L) as [A B]. exists (cupd T (code x) t). split; [apply WTS, YDef; assumption|]. split; [apply crel_put; exact C|]. cbn [wdefs sdef map]. rewrite u_ddef, B. reflexivity.
    - destruct (mapO low_acc p) as [q|] eqn:Lp; [|discriminate E]. destruct (low e) as [e'|] eqn:L; [|discriminate E]. injection E as <-. destruct (path_low _ _ _ _ P T q C Lp) as [A1 B1]. destruct (proj1 low_typed _ _ _ Y T e' C L) as [A B]. exists T. split; [eapply WTSet; [apply C; exact Sx|exact G|exact A1|exact A]|]. split; [exact C|]. cbn [wdefs sdef map]. rewrite B1, B. reflexivity.
    - destruct (low e) as [e'|] eqn:L; [|discriminate E]. injection E as <-. destruct (proj1 low_typed _ _ _ Y T e' C L) as [A B]. exists T. split; [apply WTS, YAssert; exact A|]. split; [exact C|exact B].
    - destruct (lows args) as [l'|] eqn:L; [|discriminate E]. injection E as <-. destruct (proj2 low_typed _ _ _ Y T l' C L) as [A B]. exists T. split; [eapply WTS, YLog; exact A|]. split; [exact C|exact B].
    - destruct (lows args) as [l'|] eqn:L; [|discriminate E]. injection E as <-. destruct (proj2 low_typed _ _ _ Y T l' C L) as [A B]. exists (cupd T (code x) t). split; [eapply WTS, YEmb; eassumption|]. split; [apply crel_put; exact C|]. cbn [wdefs sdef map]. rewrite u_demb, B. reflexivity.
    - discriminate E. }
  destruct Q as [T2 [A1 [A2 A3]]]. destruct (IH _ _ Xl T2 b A2 eq_refl) as [T1 [B1 [B2 B3]]]. exists T1. split; [econstructor; eassumption|]. split; [exact B2|]. rewrite wdefss_cons, A3, B3. cbn [flat_map]. rewrite map_app. reflexivity.
Qed.
Lemma args_crel : forall (ps : list (rid * cty * bool)) S T, crel S T -> crel (cbind S (map fst ps)) (fold_left (fun S p => cupd S (fst (fst p)) (snd (fst p))) (map (fun q => (code (fst (fst q)), snd (fst q), snd q)) ps) T).
Proof. induction ps as [|p ps IH]; intros S T C; [exact C|]. cbn [map cbind fold_left fst snd]. apply IH. apply crel_put. exact C. Qed.
(** each variable is an argument or defined once *)
Definition once (p : sprog) : Prop := NoDup (map (fun q => fst (fst q)) (sargs p) ++ flat_map sdef (sbody p)).
Theorem lower_typed : forall p w S, Forall good_ty (map (fun q => snd (fst q)) (sargs p)) -> xstys (cbind (fun _ => None) (map fst (sargs p))) (sbody p) S -> xty S (sret p) (sretty p) -> once p -> lower p = Some w -> wwell_typed w /\ nonneg_ids w.
Proof.
  intros p w S G X Xr On H. unfold lower in H. destruct (mapO low_stmt (sbody p)) as [l|] eqn:L; [|discriminate H]. destruct (low (sret p)) as [e|] eqn:E; [|discriminate H]. injection H as <-.
  destruct (stmts_typed _ _ _ X _ l (args_crel (sargs p) (fun _ => None) (fun _ => None) ltac:(intros x t Hx; discriminate Hx)) L) as [T1 [A [B D]]]. destruct (proj1 low_typed _ _ _ Xr T1 e B E) as [A1 B1].
  assert (Ids : map (fun q : Z * cty * bool => fst (fst q)) (map (fun q : rid * cty * bool => (code (fst (fst q)), snd (fst q), snd q)) (sargs p)) ++ wdefss l ++ tdefs e = map code (map (fun q => fst (fst q)) (sargs p) ++ flat_map sdef (sbody p))) by (rewrite B1, D, app_nil_r, map_app, !map_map; reflexivity).
  split; [|unfold nonneg_ids; cbn [wargs wbody wret]; rewrite Ids; intros y Y; apply in_map_iff in Y as [x [<- _]]; apply code_nonneg]. split; [|split; cbn [wargs wbody wret wretty]].
  - cbn [wargs]. rewrite Forall_map in G. apply Forall_map. exact G.
  - exists T1. split; [exact A|exact A1].
  - rewrite Ids. apply FinFun.Injective_map_NoDup; [intros x y; apply code_inj|exact On].
Qed.

(** ** Failures *)
Lemma mapO_app : forall A B (f : A -> option B) a b l, mapO f (a ++ b) = Some l -> exists x y, mapO f a = Some x /\ mapO f b = Some y /\ l = x ++ y.
Proof.
  intros A B f a. induction a as [|e a IH]; intros b l H; [exists [], l; auto|]. cbn [app] in H. rewrite u_mapO in H. destruct (f e) as [e'|] eqn:E; [|discriminate H]. destruct (mapO f (a ++ b)) as [r|] eqn:R; [|discriminate H]. injection H as <-. destruct (IH b r R) as [x [y [X [Y ->]]]]. exists (e' :: x), y. split; [rewrite u_mapO, E, X; reflexivity|]. auto.
Qed.
Lemma fail_split : forall l rho, sexecs nocall rho l = Failed -> exists pre s post lg rho1, l = pre ++ s :: post /\ sexecs nocall rho pre = Ok (lg, rho1) /\ sexec nocall rho1 s = Failed.
Proof.
  induction l as [|s l IH]; intros rho H; [discriminate H|]. rewrite u_ex_cons in H. destruct (sexec nocall rho s) as [[l1 rho1]| |] eqn:E; [| |discriminate H].
  - cbn [obnd fst snd] in H. destruct (sexecs nocall rho1 l) as [[l2 rho2]| |] eqn:R; [discriminate H| |discriminate H]. destruct (IH rho1 R) as [pre [s' [post [lg [rho3 [A [B D]]]]]]]. exists (s :: pre), s', post, (l1 ++ lg), rho3. split; [rewrite A; reflexivity|]. split; [rewrite u_ex_cons, E; cbn [obnd fst snd]; rewrite B; reflexivity|exact D].
  - exists [], s, l, [], rho. auto.
Qed.
Lemma xstys_split : forall a b S S2, xstys S (a ++ b) S2 -> exists S1, xstys S a S1 /\ xstys S1 b S2.
Proof. induction a as [|s a IH]; intros b S S2 H; [exists S; split; [constructor|exact H]|]. inversion H as [|? S1 ? ? ? H1 H2]; subst. destruct (IH b _ _ H2) as [S3 [A B]]. exists S3. split; [econstructor; eassumption|exact B]. Qed.
Lemma const_inb' : forall S t p te, xpath S t p te -> forall q, mapO low_acc p = Some q -> const_path q = true -> path_in_bounds t q = true -> inb t (csteps q).
Proof.
  intros S t p te H. induction H as [t|ty n i r t N Y H IH|ms m tm r t a b E Na H IH|ts k tk r t E H IH]; intros q L Cp Pb; [injection L as <-; exact Logic.I| | |]; rewrite u_mapO in L; cbn [low_acc] in L.
  - destruct (low i) as [i'|] eqn:Li; [|discriminate L]. cbn [option_map] in L. destruct (mapO low_acc r) as [r'|]; [|discriminate L]. injection L as <-. cbn [const_path path_in_bounds] in *. apply andb_prop in Cp as [C1 C2]. apply is_ulit_inv in C1 as [w [k ->]]. apply andb_prop in Pb as [P1 P2]. cbn [csteps inb]. split; [|exact (IH _ eq_refl C2 P2)]. apply Z.ltb_lt in P1. split; [|exact P1].
    destruct i as [|op args|k0 e cs| |]; cbn [low] in Li; try discriminate Li.
    + destruct (mapO low args) as [l|] eqn:Lm; [|discriminate Li]. injection Li as -> ->. inversion Y; subst. match goal with Q : op_ty (OUVal _ _) _ _ |- _ => inversion Q; subst end. lia.
    + destruct (opt_list (map num_lit cs)); [|discriminate Li]. destruct (par_op k0 l); [|discriminate Li]. destruct (low e); [|discriminate Li]. discriminate Li.
    + destruct (low i1); [|discriminate Li]. destruct (low i2); [|discriminate Li]. destruct (low i3); discriminate Li.
  - destruct (mapO low_acc r) as [r'|]; [|discriminate L]. injection L as <-. cbn [const_path path_in_bounds csteps inb] in *. subst ms. rewrite (tmem_at m tm a b Na) in Pb |- *. exact (IH _ eq_refl Cp Pb).
  - destruct (mapO low_acc r) as [r'|]; [|discriminate L]. injection L as <-. cbn [const_path path_in_bounds csteps inb] in *. rewrite E in Pb |- *. exact (IH _ eq_refl Cp Pb).
Qed.
(** a violated assertion of the program becomes a failure of the lowered program at the same statement *)
Theorem lower_fails : forall p w S vs, Forall good_ty (map (fun q => snd (fst q)) (sargs p)) -> xstys (cbind (fun _ => None) (map fst (sargs p))) (sbody p) S -> lower p = Some w ->
  bounds_ok w = true -> Forall2 has_type vs (map (fun q => snd (fst q)) (sargs p)) -> srun nocall p vs = Failed -> wfails_k true w vs.
Proof.
  intros p w S vs G X H Bo Tv Rn. unfold lower in H. destruct (mapO low_stmt (sbody p)) as [l|] eqn:L; [|discriminate H]. destruct (low (sret p)) as [e|] eqn:E; [|discriminate H]. injection H as <-. unfold srun in Rn. set (r0 := rbind (fun _ => None) (map (fun q => fst (fst q)) (sargs p)) vs) in *.
  assert (Fb : sexecs nocall r0 (sbody p) = Failed). { destruct (sexecs nocall r0 (sbody p)) as [[l1 rho1]| |]; [|reflexivity|discriminate Rn]. cbn [obnd fst snd] in Rn. destruct (eval_silent rho1 (sret p)) as [Z0|[v Z0]]; rewrite Z0 in Rn; discriminate Rn. }
  destruct (fail_split _ _ Fb) as [pre [s [post [lg [rho1 [Eq [Ep Es]]]]]]]. rewrite Eq in L, X. destruct (mapO_app _ _ _ _ _ _ L) as [pre' [l2 [Lp [L2 ->]]]]. rewrite u_mapO in L2. destruct (low_stmt s) as [s'|] eqn:Ls; [|discriminate L2]. destruct (mapO low_stmt post) as [post'|]; [|discriminate L2]. injection L2 as <-.
  destruct (xstys_split _ _ _ _ X) as [S1 [X1 X2]]. inversion X2 as [|? S2 ? ? ? Xs _]; subst.
  assert (R0 : rok (cbind (fun _ => None) (map fst (sargs p))) r0). { unfold r0. replace (map (fun q : rid * cty * bool => fst (fst q)) (sargs p)) with (map (@fst rid cty) (map fst (sargs p))) by apply map_map. apply rbind_ok; [intros y t Hy; discriminate Hy|]. rewrite map_map. exact Tv. }
  pose proof (proj2 (exec_typed nocall nocall_ok) _ _ _ X1 _ _ _ R0 Ep) as R1.
  set (t0 := tbind (fun _ => None) (map (fun q : rid * cty * bool => (code (fst (fst q)), snd (fst q), snd q)) (sargs p)) vs).
  assert (Q0 : erel r0 t0) by (apply bind_low; intros x; reflexivity). pose proof (stmts_low pre pre' r0 t0 Q0 Lp) as Q. rewrite Ep in Q. destruct (wexecs t0 pre') as [[m1 t1]| |] eqn:Ew; try contradiction Q. destruct Q as [<- Q1].
  exists pre', s', post', lg, t1. cbn [wbody wargs]. split; [reflexivity|]. split; [exact Ew|].
  assert (Bs : forallb bounds_stmt (remove_write s') = true) by (unfold bounds_ok in Bo; cbn [remove_writes wbody] in Bo; apply andb_prop in Bo as [Bo _]; rewrite flat_map_app, forallb_app in Bo; apply andb_prop in Bo as [_ Bo]; cbn [flat_map] in Bo; rewrite forallb_app in Bo; apply andb_prop in Bo as [Bo _]; exact Bo).
  destruct Xs as [S9 x t e0 Gt N Y|S9 x t q e0 te Sx Gt P Y|S9 e0 err Y|S9 fmt args ts Y|S9 x t em args ts N Y M|S9 Sb x a0 b0 body]; cbn [low_stmt] in Ls.
  - exfalso. cbn [sexec] in Es. destruct (eval_silent rho1 e0) as [Z0|[v Z0]]; rewrite Z0 in Es; discriminate Es.
  - destruct (mapO low_acc q) as [q'|] eqn:Lq; [|discriminate Ls]. destruct (low e0) as [e'|] eqn:Le; [|discriminate Ls]. injection Ls as <-. cbn [sexec] in Es. destruct (steps_low rho1 t1 Q1 q q' Lq) as [A B]. pose proof (low_eval rho1 t1 Q1 e0 e' Le) as A2.
    destruct (eval_silent rho1 e0) as [Z0|[v Z0]]; rewrite Z0 in Es; [discriminate Es|]. destruct B as [B|[ps B]]; rewrite B in Es; [discriminate Es|]. cbn [obnd fst snd] in Es. destruct (R1 x t Sx) as [u [U Tu]]. rewrite U in Es. cbn [of_opt obnd] in Es. destruct (put ps v u) as [u'|] eqn:Pu; [discriminate Es|].
    destruct (const_path q') eqn:Cp.
    + exfalso. cbn [remove_write] in Bs. rewrite Cp in Bs. cbn [forallb bounds_stmt] in Bs. apply andb_prop in Bs as [Bs _]. apply andb_prop in Bs as [Bs _].
      rewrite (csteps_ok q' t1 Cp), B in A. injection A as Eps. pose proof (path_typed nocall nocall_ok _ _ _ _ P _ _ _ R1 B) as St. rewrite <- Eps in St, Pu.
      assert (Ib : inb t (csteps q')) by exact (const_inb' _ t q te P q' Lq Cp Bs).
      destruct (put_flat _ _ _ St u Tu Ib) as [a [old [c [_ [_ [_ Q]]]]]]. destruct (Q v (proj1 (eval_typed nocall nocall_ok) _ _ _ Y _ _ _ R1 Z0)) as [v' [Pv _]]. rewrite Pv in Pu. discriminate Pu.
    + split; [exact Cp|]. exists [], ps, [], v, u. rewrite A, A2, (Q1 x). auto.
  - destruct (low e0) as [e'|] eqn:Le; [|discriminate Ls]. injection Ls as <-. cbn [sexec] in Es. pose proof (low_eval rho1 t1 Q1 e0 e' Le) as A2. destruct (eval_silent rho1 e0) as [Z0|[v Z0]]; rewrite Z0 in Es; [discriminate Es|]. cbn [obnd fst snd] in Es. destruct v as [| |[|]| | |]; try discriminate Es. cbn [fails_at]. exists []. rewrite A2. exact Z0.
  - exfalso. cbn [sexec] in Es. destruct (lists_silent rho1 args) as [Z0|[us Z0]]; [apply Forall_forall; intros; apply eval_silent| |]; change (eval_list (seval nocall rho1) args) with (sevals nocall rho1 args) in Es; rewrite Z0 in Es; discriminate Es.
  - destruct (lows args) as [l'|] eqn:Ll; [|discriminate Ls]. injection Ls as <-. cbn [sexec] in Es. change (eval_list (seval nocall rho1) args) with (sevals nocall rho1 args) in Es. destruct (lists_silent rho1 args) as [Z0|[us Z0]]; [apply Forall_forall; intros; apply eval_silent| |]; rewrite Z0 in Es; [discriminate Es|]. cbn [obnd fst snd] in Es. destruct (sem_emb em us) eqn:Ee; try discriminate Es. cbn [fails_at]. split; [reflexivity|]. exists [], us. split; [|exact Ee]. rewrite (lows_eval rho1 t1 Q1 args l' Ll). exact Z0.
  - discriminate Ls.
Qed.
End Lower.
