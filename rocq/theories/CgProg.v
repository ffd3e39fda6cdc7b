(** Correctness of the flattening of built-in functions, statements, parameters and programs. *)
From Coq Require Import ZArith Znumtheory NArith List Bool Lia Field.
From Verif Require Import PField SMap IR IRSpec Interp Bits Flat FlatProofs Zir Codegen CgBase CgGadgets CgExpr CgStmt CgEmit.
Import ListNotations.
Open Scope Z_scope.

Section StaticS.
Context {PF : PrimeField}.
(** ** What the code generator expects of statements *)
Definition tupd (G : tenv) (x : ident) (k : kind) : tenv := fun y => if y =? x then Some k else G y.
Fixpoint tupds (G : tenv) (xs : list ident) (ks : list kind) : tenv :=
  match xs, ks with x :: r, k :: s => tupds (tupd G x k) r s | _, _ => G end.
(** a uint that leaves the program, or enters a built-in function, is reduced *)
Definition out_ok (G : tenv) (e : zexp) : Prop := wt G e /\ match zkind e with KU a => redT a | _ => True end.
Definition full_ann (n : nat) : ann := mkAnn n (of_Z (pow2 n - 1)) SRTrue.
Definition embed_args (em : embed) (ks : list kind) : Prop :=
  match em with
  | EFieldToBool => ks = [KF]
  | EToBits n => exists a, ks = [KU a] /\ uw a = n
  | EFromBits n => (1 <= n)%nat /\ (2 * n + 3 <= required_bits)%nat /\ ks = repeat KB n
  | EBitLe n => (n <= required_bits)%nat /\ ks = repeat KB (2 * n)
  | EUnpack n => (n <= required_bits)%nat /\ ks = [KF]
  end.
Definition embed_kinds (em : embed) : list kind :=
  match em with
  | EFieldToBool | EBitLe _ => [KB]
  | EToBits n | EUnpack n => repeat KB n
  | EFromBits n => [KU (full_ann n)]
  end.
Fixpoint tpost (G : tenv) (s : zstmt) : tenv :=
  match s with
  | ZDef x e => tupd G x (zkind e)
  | ZEmbed xs em _ => tupds G xs (embed_kinds em)
  | ZIf _ a b => fold_left tpost b (fold_left tpost a G)
  | _ => G
  end.
Fixpoint wts (G : tenv) (s : zstmt) : Prop :=
  match s with
  | ZReturn es | ZLog _ es => Forall (out_ok G) es
  | ZDef _ e => wt G e
  | ZAssert e _ => wt G e /\ zkind e = KB
  | ZEmbed xs em es =>
      Forall (out_ok G) es /\ embed_args em (map zkind es) /\ length xs = length (embed_kinds em) /\
      match em with EFromBits _ => Forall (fun x => G x = None) xs | _ => True end
  | ZIf c a b =>
      wt G c /\ zkind c = KB /\
      (fix go (G : tenv) (l : list zstmt) : Prop := match l with [] => True | s :: r => wts G s /\ go (tpost G s) r end) G a /\
      (fix go (G : tenv) (l : list zstmt) : Prop := match l with [] => True | s :: r => wts G s /\ go (tpost G s) r end) (fold_left tpost a G) b
  end.
Fixpoint wtss (G : tenv) (l : list zstmt) : Prop := match l with [] => True | s :: r => wts G s /\ wtss (tpost G s) r end.

(** ** Unpacking
    unpack to as many bits as the field has is not a function: a small value v has the bits of v and the bits of v + p. [unpacks o s o']: one of
    the outcomes the constraints of unpack allow. *)
Definition unpacks (o : outs_s) (s : zstmt) (o' : outs_s) : Prop :=
  match s with
  | ZEmbed xs (EUnpack n) [e] => exists bs, sem (os_env o) e = Some (VF (of_Z (bv bs))) /\ length bs = n /\ length xs = n /\
      o' = mkOuts (upds_s (os_env o) xs (map VB bs)) (os_ret o) (os_log o)
  | _ => False
  end.
(** the variables a statement assigns *)
Fixpoint sdefs (s : zstmt) : list ident :=
  match s with
  | ZDef x _ => [x]
  | ZEmbed xs _ _ => xs
  | ZIf _ a b => flat_map sdefs a ++ flat_map sdefs b
  | _ => []
  end.
Definition memb (x : ident) (l : list ident) : bool := existsb (Z.eqb x) l.
(** [strict_s]: every unpack to as many bits as the field has is followed by an assertion that the bits represent at most p - 1, as in the standard
    library (zokrates_stdlib/stdlib/utils/pack/bool/unpack.zok l.6-12: assert(bit_array_le(res, bits of -1))). The bits may be copied before they
    are checked ([al]: variables holding the i-th bit), and so may the result of the check ([ys]). *)
Fixpoint bit_ix (al : list (ident * nat)) (x : ident) : option nat := match al with [] => None | (y, i) :: r => if x =? y then Some i else bit_ix r x end.
Definition arg_ix (al : list (ident * nat)) (e : zexp) : option nat := match e with ZId KB x => bit_ix al x | _ => None end.
Definition arg_bit (e : zexp) : option bool := match e with ZBVal b => Some b | _ => None end.
Fixpoint ix_from (i : nat) (l : list (option nat)) : bool := match l with [] => true | Some j :: r => Nat.eqb i j && ix_from (S i) r | None :: _ => false end.
Definition le_check_of (n : nat) (al : list (ident * nat)) (es : list zexp) : bool :=
  ix_from 0 (map (arg_ix al) (firstn n es)) && Nat.eqb (length es) (2 * n) &&
  match opt_list (map arg_bit (skipn n es)) with Some cs => bv cs <=? pp - 1 | None => false end.
Fixpoint enforced (n : nat) (al : list (ident * nat)) (ys : list ident) (l : list zstmt) : bool :=
  match l with
  | [] => false
  | s :: r =>
      let al' := filter (fun q => negb (memb (fst q) (sdefs s))) al in
      let ys' := filter (fun y => negb (memb y (sdefs s))) ys in
      match s with
      | ZDef x (ZId KB y) => enforced n (match bit_ix al y with Some i => (x, i) :: al' | None => al' end) (if memb y ys then x :: ys' else ys') r
      | ZEmbed [y] (EBitLe m) es => enforced n al' (if Nat.eqb m n && le_check_of n al es then y :: ys' else ys') r
      | ZAssert (ZId KB y) _ => memb y ys || enforced n al' ys' r
      | _ => enforced n al' ys' r
      end
  end.
Definition uniqb (xs : list ident) : bool := (fix go (l : list ident) : bool := match l with [] => true | x :: r => negb (memb x r) && go r end) xs.
Fixpoint strict_s (s : zstmt) : bool :=
  match s with
  | ZIf _ a b =>
      (fix go (l : list zstmt) : bool := match l with [] => true | s :: r => strict_s s && match s with ZEmbed xs (EUnpack n) _ => Nat.ltb n required_bits || uniqb xs && enforced n (combine xs (seq 0 n)) [] r | _ => true end && go r end) a &&
      (fix go (l : list zstmt) : bool := match l with [] => true | s :: r => strict_s s && match s with ZEmbed xs (EUnpack n) _ => Nat.ltb n required_bits || uniqb xs && enforced n (combine xs (seq 0 n)) [] r | _ => true end && go r end) b
  | _ => true
  end.
Fixpoint stricts (l : list zstmt) : bool :=
  match l with
  | [] => true
  | s :: r => strict_s s && match s with ZEmbed xs (EUnpack n) _ => Nat.ltb n required_bits || uniqb xs && enforced n (combine xs (seq 0 n)) [] r | _ => true end && stricts r
  end.

(** ** What is assumed at run time: no division by zero in the field (enforced by the assertions of the panic
    extractor), and casts from field to bool are applied to 0 and 1. [K]: whichever bits unpack gives, among those its constraints allow. *)
Definition sstep (K : Prop) (o : outs_s) (s : zstmt) (o' : outs_s) : Prop := sem_stmt o s = Some o' \/ (K /\ unpacks o s o').
Section Safe.
Variable K : Prop.
Fixpoint safe_stmt (o : outs_s) (s : zstmt) : Prop :=
  match s with
  | ZReturn es | ZLog _ es => Forall (divs (os_env o)) es
  | ZDef _ e | ZAssert e _ => divs (os_env o) e
  | ZEmbed _ em es =>
      Forall (divs (os_env o)) es /\
      match em with
      | EFieldToBool => forall x, sem_list (os_env o) es = Some [VF x] -> x = f0 \/ x = f1
      | _ => True
      end
  | ZIf c a b =>
      divs (os_env o) c /\
      (fix go (o : outs_s) (l : list zstmt) : Prop :=
         match l with [] => True | s :: r => safe_stmt o s /\ forall o', sstep K o s o' -> go o' r end) o a /\
      forall o', sem_stmts o a = Some o' ->
      (fix go (o : outs_s) (l : list zstmt) : Prop :=
         match l with [] => True | s :: r => safe_stmt o s /\ forall o', sstep K o s o' -> go o' r end) o' b
  end.
Fixpoint safe_stmts (o : outs_s) (l : list zstmt) : Prop :=
  match l with [] => True | s :: r => safe_stmt o s /\ forall o', sstep K o s o' -> safe_stmts o' r end.
Lemma safe_if : forall o c a b, safe_stmt o (ZIf c a b) <->
  divs (os_env o) c /\ safe_stmts o a /\ (forall o', sem_stmts o a = Some o' -> safe_stmts o' b).
Proof. reflexivity. Qed.
End Safe.

Lemma sem_if : forall o c a b, sem_stmt o (ZIf c a b) =
  match sem (os_env o) c with
  | Some (VB _) => match sem_stmts o a with Some o1 => sem_stmts o1 b | None => None end
  | _ => None
  end.
Proof.
  intros o c a b. cbn [sem_stmt].
  set (run := fix run (o : outs_s) (ss : list zstmt) : option outs_s :=
            match ss with
            | [] => Some o
            | s :: r => match sem_stmt o s with Some o' => run o' r | None => None end
            end).
  assert (E : forall ss o, run o ss = sem_stmts o ss).
  { induction ss as [|s r IH]; intros o0; cbn; auto. }
  destruct (sem (os_env o) c) as [[]|]; auto.
Qed.
Lemma flat_if : forall c a b, flat_stmt (ZIf c a b) =
  (x <- flat c ;; _ <- newdef (getf x) ;; flat_stmts_z a ;;; flat_stmts_z b).
Proof. reflexivity. Qed.
Lemma wts_if : forall G c a b, wts G (ZIf c a b) <-> wt G c /\ zkind c = KB /\ wtss G a /\ wtss (fold_left tpost a G) b.
Proof. reflexivity. Qed.
Lemma strict_if : forall c a b, strict_s (ZIf c a b) = stricts a && stricts b.
Proof. reflexivity. Qed.

Section SInd.
Variable P : zstmt -> Prop.
Hypothesis HRet : forall es, P (ZReturn es).
Hypothesis HDef : forall x e, P (ZDef x e).
Hypothesis HIf : forall c a b, Forall P a -> Forall P b -> P (ZIf c a b).
Hypothesis HAss : forall e err, P (ZAssert e err).
Hypothesis HEmb : forall xs em es, P (ZEmbed xs em es).
Hypothesis HLog : forall f es, P (ZLog f es).
Fixpoint zstmt_ind' (s : zstmt) : P s :=
  let go := fix go (l : list zstmt) : Forall P l :=
    match l with [] => Forall_nil P | x :: r => Forall_cons x (zstmt_ind' x) (go r) end in
  match s with
  | ZReturn es => HRet es
  | ZDef x e => HDef x e
  | ZIf c a b => HIf c a b (go a) (go b)
  | ZAssert e err => HAss e err
  | ZEmbed xs em es => HEmb xs em es
  | ZLog f es => HLog f es
  end.
End SInd.

(** The scan: if the statements run, the bits represent at most p - 1. *)
Lemma memb_in : forall x l, memb x l = true <-> In x l.
Proof. intros x l. unfold memb. rewrite existsb_exists. split; [intros [y [I E]]; apply Z.eqb_eq in E; subst; exact I|intros I; exists x; split; [exact I|apply Z.eqb_refl]]. Qed.
Lemma upds_s_other : forall xs vs rho x, ~ In x xs -> upds_s rho xs vs x = rho x.
Proof. induction xs as [|y xs IH]; intros vs rho x N; [destruct vs; reflexivity|]. destruct vs as [|v vs]; [reflexivity|]. cbn [upds_s]. rewrite IH by (intros I; apply N; right; exact I). unfold upd_s. destruct (Z.eqb_spec x y) as [->|_]; [exfalso; apply N; left; reflexivity|reflexivity]. Qed.
Lemma stmt_others : forall s o o' x, sem_stmt o s = Some o' -> ~ In x (sdefs s) -> os_env o' x = os_env o x.
Proof.
  apply (zstmt_ind' (fun s => forall o o' x, sem_stmt o s = Some o' -> ~ In x (sdefs s) -> os_env o' x = os_env o x)).
  - intros es o o' x E _. cbn [sem_stmt] in E. destruct (sem_list (os_env o) es); [|discriminate E]. injection E as <-. reflexivity.
  - intros y e o o' x E N. cbn [sem_stmt] in E. destruct (sem (os_env o) e); [|discriminate E]. injection E as <-. cbn [os_env]. unfold upd_s. destruct (Z.eqb_spec x y) as [->|_]; [exfalso; apply N; left; reflexivity|reflexivity].
  - intros c a b Ha Hb o o' x E N. rewrite sem_if in E. destruct (sem (os_env o) c) as [[]|]; try discriminate E. destruct (sem_stmts o a) as [o1|] eqn:E1; [|discriminate E]. cbn [sdefs] in N.
    assert (G : forall l, Forall (fun s => forall o o' x, sem_stmt o s = Some o' -> ~ In x (sdefs s) -> os_env o' x = os_env o x) l -> forall o o', sem_stmts o l = Some o' -> ~ In x (flat_map sdefs l) -> os_env o' x = os_env o x).
    { induction 1 as [|s r Hs Hr IH]; intros u u' X M; cbn [sem_stmts] in X; [injection X as <-; reflexivity|]. destruct (sem_stmt u s) as [u1|] eqn:Y; [|discriminate X]. cbn [flat_map] in M. rewrite (IH u1 u' X) by (intros I; apply M, in_or_app; right; exact I). apply (Hs u u1 x Y). intros I. apply M, in_or_app. left. exact I. }
    rewrite (G b Hb o1 o' E) by (intros I; apply N, in_or_app; right; exact I). apply (G a Ha o o1 E1). intros I. apply N, in_or_app. left. exact I.
  - intros e err o o' x E _. cbn [sem_stmt] in E. destruct (sem (os_env o) e) as [[ |[|]| ]|]; try discriminate E. injection E as <-. reflexivity.
  - intros xs em es o o' x E N. cbn [sem_stmt] in E. destruct (sem_list (os_env o) es) as [vs|]; [|discriminate E]. destruct (sem_embed em vs) as [rs|]; [|discriminate E]. destruct (Nat.eqb (length xs) (length rs)); [|discriminate E]. injection E as <-. cbn [os_env]. apply upds_s_other. exact N.
  - intros f es o o' x E _. cbn [sem_stmt] in E. destruct (sem_list (os_env o) es); [|discriminate E]. injection E as <-. reflexivity.
Qed.
Definition al_ok (bs : list bool) (o : outs_s) (al : list (ident * nat)) : Prop := forall x i, In (x, i) al -> os_env o x = Some (VB (nth i bs false)).
Definition ys_ok (bs : list bool) (o : outs_s) (ys : list ident) : Prop := forall y, In y ys -> exists b, os_env o y = Some (VB b) /\ (b = true -> bv bs <= pp - 1).
Lemma bit_ix_in : forall al x i, bit_ix al x = Some i -> In (x, i) al.
Proof. induction al as [|[y j] al IH]; intros x i E; cbn [bit_ix] in E; [discriminate E|]. destruct (Z.eqb_spec x y) as [->|_]; [injection E as ->; left; reflexivity|right; exact (IH x i E)]. Qed.
Lemma al_step : forall bs o o' s al, sem_stmt o s = Some o' -> al_ok bs o al -> al_ok bs o' (filter (fun q => negb (memb (fst q) (sdefs s))) al).
Proof. intros bs o o' s al E A x i I. apply filter_In in I as [I N]. cbn [fst] in N. apply negb_true_iff in N. rewrite (stmt_others s o o' x E); [exact (A x i I)|]. intros J. apply memb_in in J. congruence. Qed.
Lemma ys_step : forall bs o o' s ys, sem_stmt o s = Some o' -> ys_ok bs o ys -> ys_ok bs o' (filter (fun q => negb (memb q (sdefs s))) ys).
Proof. intros bs o o' s ys E A x I. apply filter_In in I as [I N]. apply negb_true_iff in N. rewrite (stmt_others s o o' x E); [exact (A x I)|]. intros J. apply memb_in in J. congruence. Qed.
Lemma ix_bits : forall bs o al es i vs, al_ok bs o al -> ix_from i (map (arg_ix al) es) = true -> opt_list (map (sem (os_env o)) es) = Some vs -> vs = map VB (map (fun j => nth j bs false) (seq i (length es))).
Proof.
  intros bs o al. induction es as [|e es IH]; intros i vs A H E; cbn [map opt_list] in E; [injection E as <-; reflexivity|]. cbn [map ix_from] in H. destruct (arg_ix al e) as [j|] eqn:J; [|discriminate H]. apply andb_prop in H as [H1 H2]. apply Nat.eqb_eq in H1. subst j.
  destruct (sem (os_env o) e) as [v|] eqn:V; [|discriminate E]. destruct (opt_list (map (sem (os_env o)) es)) as [vs'|] eqn:Vs; [|discriminate E]. injection E as <-. cbn [length seq map]. rewrite <- (IH (S i) vs' A H2 eq_refl). f_equal.
  destruct e as [ | | |k x| | | | | | | | | | | ]; try discriminate J. destruct k; try discriminate J. cbn [arg_ix] in J. apply bit_ix_in in J. cbn [sem] in V. rewrite (A x i J) in V. injection V as <-. reflexivity.
Qed.
Lemma const_bits : forall rho es cs vs, opt_list (map arg_bit es) = Some cs -> opt_list (map (sem rho) es) = Some vs -> vs = map VB cs.
Proof.
  intros rho. induction es as [|e es IH]; intros cs vs H E; cbn [map opt_list] in *; [injection H as <-; injection E as <-; reflexivity|]. destruct e; try discriminate H. cbn [arg_bit sem] in *. destruct (opt_list (map arg_bit es)) as [cs'|] eqn:C; [|discriminate H]. injection H as <-. destruct (opt_list (map (sem rho) es)) as [vs'|] eqn:V; [|discriminate E]. injection E as <-. cbn [map]. rewrite (IH cs' vs' eq_refl eq_refl). reflexivity.
Qed.
Lemma opt_list_app : forall A (a b : list (option A)) l, opt_list (a ++ b) = Some l -> exists x y, opt_list a = Some x /\ opt_list b = Some y /\ l = x ++ y.
Proof.
  intros A. induction a as [|[v|] a IH]; intros b l E; cbn [app opt_list] in E; [exists [], l; split; [reflexivity|split; [exact E|reflexivity]]| |discriminate E]. destruct (opt_list (a ++ b)) as [r|] eqn:R; [|discriminate E]. injection E as <-. destruct (IH b r R) as [x [y [X [Y ->]]]]. exists (v :: x), y. cbn [opt_list]. rewrite X. split; [reflexivity|split; [exact Y|reflexivity]].
Qed.
Lemma bools_of_VB : forall bs, bools_of (map VB bs) = Some bs.
Proof. unfold bools_of. induction bs as [|b bs IH]; cbn [map opt_list]; [reflexivity|]. rewrite IH. reflexivity. Qed.
Lemma nth_all : forall bs : list bool, map (fun j => nth j bs false) (seq 0 (length bs)) = bs.
Proof. induction bs as [|b bs IH]; [reflexivity|]. cbn [length seq map nth]. f_equal. rewrite <- seq_shift, map_map. exact IH. Qed.
Lemma le_check_ok : forall bs o al n es y o', length bs = n -> al_ok bs o al -> le_check_of n al es = true -> sem_stmt o (ZEmbed [y] (EBitLe n) es) = Some o' -> exists b, os_env o' y = Some (VB b) /\ (b = true -> bv bs <= pp - 1).
Proof.
  intros bs o al n es y o' L A H E. unfold le_check_of in H. apply andb_prop in H as [H H3]. apply andb_prop in H as [H1 H2]. apply Nat.eqb_eq in H2. destruct (opt_list (map arg_bit (skipn n es))) as [cs|] eqn:C; [|discriminate H3]. apply Z.leb_le in H3. cbn [sem_stmt] in E.
  destruct (sem_list (os_env o) es) as [vs|] eqn:V; [|discriminate E]. unfold sem_list in V. rewrite <- (firstn_skipn n es), map_app in V. apply opt_list_app in V as [v1 [v2 [V1 [V2 ->]]]]. pose proof (ix_bits bs o al _ 0 v1 A H1 V1) as E1. pose proof (const_bits _ _ _ _ C V2) as E2.
  rewrite firstn_length_le in E1 by lia. rewrite <- L in E1 at 1. rewrite nth_all in E1. subst v1 v2.
  assert (Lc : length cs = n). {  assert (G : forall l c, opt_list (map arg_bit l) = Some c -> length c = length l). { induction l as [|e l IH]; intros c Q; cbn [map opt_list] in Q; [injection Q as <-; reflexivity|]. destruct (arg_bit e); [|discriminate Q]. destruct (opt_list (map arg_bit l)) as [c'|]; [|discriminate Q]. injection Q as <-. cbn [length]. rewrite (IH c' eq_refl). reflexivity. } rewrite (G _ _ C), skipn_length. lia. }
  cbn [sem_embed] in E. rewrite <- map_app, bools_of_VB, app_length, L, Lc in E. replace (Nat.eqb (n + n) (2 * n)) with true in E by (symmetry; apply Nat.eqb_eq; lia). rewrite <- L in E. rewrite firstn_app, Nat.sub_diag, firstn_all, skipn_app, skipn_all, Nat.sub_diag in E. cbn [firstn skipn app] in E. rewrite app_nil_r in E. cbn [length Nat.eqb] in E. injection E as <-. cbn [os_env upds_s]. unfold upd_s. rewrite Z.eqb_refl. eexists. split; [reflexivity|]. intros Q. apply Z.leb_le in Q. lia.
Qed.
Lemma enforced_ok : forall l n bs al ys o o', length bs = n -> al_ok bs o al -> ys_ok bs o ys -> enforced n al ys l = true -> sem_stmts o l = Some o' -> bv bs <= pp - 1.
Proof.
  induction l as [|s l IH]; intros n bs al ys o o' L A Y H E; [discriminate H|]. cbn [sem_stmts] in E. destruct (sem_stmt o s) as [o1|] eqn:E1; [|discriminate E]. pose proof (al_step bs o o1 s al E1 A) as A1. pose proof (ys_step bs o o1 s ys E1 Y) as Y1.
  set (al1 := filter (fun q => negb (memb (fst q) (sdefs s))) al) in *. set (ys1 := filter (fun y => negb (memb y (sdefs s))) ys) in *.
  assert (D : enforced n al1 ys1 l = true -> bv bs <= pp - 1) by (intros Q; exact (IH n bs al1 ys1 o1 o' L A1 Y1 Q E)).
  destruct s as [es|x e|c a b|e err|xs em es|f es]; try exact (D H).
  - destruct e as [ | | |k y| | | | | | | | | | | ]; try exact (D H). destruct k; try exact (D H). cbn [enforced] in H. fold al1 ys1 in H. cbn [sem_stmt sem] in E1. destruct (os_env o y) as [v|] eqn:V; [|discriminate E1]. injection E1 as <-. refine (IH n bs _ _ _ _ L _ _ H E).
    + destruct (bit_ix al y) as [i|] eqn:B; [|exact A1]. intros z j [J|J]; [|exact (A1 z j J)]. injection J as <- <-. cbn [os_env]. unfold upd_s. rewrite Z.eqb_refl. apply bit_ix_in in B. rewrite (A y i B) in V. symmetry. exact V.
    + destruct (memb y ys) eqn:B; [|exact Y1]. intros z [J|J]; [|exact (Y1 z J)]. subst z. cbn [os_env]. unfold upd_s. rewrite Z.eqb_refl. apply memb_in in B. destruct (Y y B) as [t [T1 T2]]. exists t. rewrite T1 in V. injection V as <-. split; [reflexivity|exact T2].
  - destruct e as [ | | |k y| | | | | | | | | | | ]; try exact (D H). destruct k; try exact (D H). cbn [enforced] in H. fold al1 ys1 in H. apply orb_prop in H as [H|H]; [|exact (D H)]. apply memb_in in H. destruct (Y y H) as [t [T1 T2]]. cbn [sem_stmt sem] in E1. rewrite T1 in E1. destruct t; [exact (T2 eq_refl)|discriminate E1].
  - destruct xs as [|y [|? ?]]; try exact (D H). destruct em as [|m|m|m|m]; try exact (D H). cbn [enforced] in H. fold al1 ys1 in H. destruct (Nat.eqb m n && le_check_of n al es) eqn:Q; [|exact (D H)]. apply andb_prop in Q as [Q1 Q2]. apply Nat.eqb_eq in Q1. subst m. destruct (le_check_ok bs o al n es y o1 L A Q2 E1) as [t [T1 T2]].
    refine (IH n bs _ _ _ _ L A1 _ H E). intros z [J|J]; [subst z; exists t; split; assumption|exact (Y1 z J)].
Qed.
Lemma uniq_combine : forall xs bs rho i, uniqb xs = true -> length xs = length bs -> forall x j, In (x, j) (combine xs (seq i (length bs))) -> upds_s rho xs (map VB bs) x = Some (VB (nth (j - i) bs false)).
Proof.
  induction xs as [|y xs IH]; intros bs rho i U L x j I; [destruct I|]. destruct bs as [|b bs]; [discriminate L|]. change (negb (memb y xs) && uniqb xs = true) in U. apply andb_prop in U as [U1 U2]. apply negb_true_iff in U1. cbn [length seq combine] in I. cbn [map upds_s].
  destruct I as [I|I].
  - injection I as <- <-. rewrite upds_s_other by (intros J; apply memb_in in J; congruence). unfold upd_s. rewrite Z.eqb_refl, Nat.sub_diag. reflexivity.
  - injection L as L. rewrite (IH bs _ (S i) U2 L x j I). apply in_combine_r in I. apply in_seq in I. replace (j - i)%nat with (S (j - S i)) by lia. reflexivity.
Qed.
(** the unpacked bits are those of the value, if the check follows *)
Lemma strict_unpack : forall o xs bs r o1 o', uniqb xs = true -> length xs = length bs -> o1 = mkOuts (upds_s (os_env o) xs (map VB bs)) (os_ret o) (os_log o) ->
  enforced (length bs) (combine xs (seq 0 (length bs))) [] r = true -> sem_stmts o1 r = Some o' -> bs = bits_be (length bs) (fval (of_Z (bv bs))).
Proof.
  intros o xs bs r o1 o' U L E1 H E. assert (B : bv bs <= pp - 1). { refine (enforced_ok r (length bs) bs _ _ o1 o' eq_refl _ _ H E); [|intros y []]. subst o1. intros x i I. cbn [os_env]. rewrite (uniq_combine xs bs _ 0 U L x i I), Nat.sub_0_r. reflexivity. }
  pose proof (bv_range bs). rewrite fval_of_Z_small by lia. symmetry. apply bits_be_bv.
Qed.

(** Binding a new name does not disturb expressions that do not mention it. *)
Lemma wt_upd : forall G x k e, G x = None -> wt G e -> wt (tupd G x k) e.
Proof.
  intros G x k e Hx. induction e using zexp_sub_ind; intros W; cbn [wt] in *; try tauto.
  - destruct W as [H1 [k' [H2 H3]]]. split; auto. exists k'. split; auto. unfold tupd. destruct (Z.eqb_spec x0 x); [congruence|auto].
  - destruct W as [H1 [H2 [H3 H4]]]. split; auto. split; [eapply opw_impl; [| |exact H2]; auto|]. split; [eapply opw_impl; [| |exact H3]; auto|exact H4].
  - destruct W as [H1 [H2 [H3 [H4 H5]]]]. split; auto. split; auto. split; auto. split; auto.
    revert H H5. clear. induction es as [|e r IH]; intros HF H5; auto. inversion HF; subst. destruct H5 as [? [? ?]]. split; [auto|]. split; [auto|]. apply IH; auto.
Qed.
Lemma opw_sem : forall G rho rho' op l, (wt G l -> sem rho' l = sem rho l) -> sub_ (fun e => wt G e -> sem rho' e = sem rho e) l ->
  opw op (wt G) l -> sem rho' l = sem rho l.
Proof.
  intros G rho rho' op l A B W. assert (N : opnd (wt G) l -> sem rho' l = sem rho l).
  { destruct l; cbn [opnd sub_] in *; auto; intros [_ [_ [H _]]]; cbn [sem]; rewrite B by exact H; reflexivity. }
  destruct op; cbn [opw] in W; auto.
Qed.
Lemma sem_upd : forall G rho x v e, G x = None -> wt G e -> sem (upd_s rho x v) e = sem rho e.
Proof.
  intros G rho x v e Hx. induction e using zexp_sub_ind; intros W; cbn [wt sem] in *; auto.
  - destruct W as [_ [k' [HG _]]]. unfold upd_s. destruct (Z.eqb_spec x0 x); [congruence|auto].
  - rewrite IHe1, IHe2 by tauto. auto.
  - rewrite IHe by tauto. auto.
  - rewrite IHe1, IHe2 by tauto. auto.
  - rewrite IHe1, IHe2 by tauto. auto.
  - rewrite IHe by tauto. auto.
  - destruct W as [_ [W1 [W2 _]]]. rewrite (opw_sem G rho _ op e1), (opw_sem G rho _ op e2); auto.
  - rewrite IHe by tauto. auto.
  - rewrite IHe by tauto. auto.
  - rewrite IHe by tauto. auto.
  - rewrite IHe1, IHe2, IHe3 by tauto. auto.
  - rewrite IHe by tauto. assert (E : map (sem (upd_s rho x v)) es = map (sem rho) es); [|rewrite E; auto].
    destruct W as [_ [_ [_ [_ W]]]]. revert H W. clear. induction es as [|e r IH]; intros HF H5; auto. inversion HF; subst.
    destruct H5 as [? [? ?]]. cbn [map]. rewrite IH by auto. f_equal. auto.
Qed.
Lemma divs_upd : forall G rho x v e, G x = None -> wt G e -> divs rho e -> divs (upd_s rho x v) e.
Proof.
  intros G rho x v e Hx. induction e using zexp_sub_ind; intros W D; cbn [wt divs] in *; auto; try tauto.
  - destruct W as [W1 [W2 _]]. destruct D as [D1 [D2 D3]]. split; auto. split; auto. destruct op; auto. rewrite (sem_upd G) by auto. auto.
  - destruct W as [_ [W1 [W2 _]]]. destruct D as [D1 D2]. split.
    + destruct op; cbn [opw] in W1; auto; destruct e1; cbn [opnd sub_] in *; auto; first [apply H|apply H0]; auto; apply W1.
    + destruct op; cbn [opw] in W2; auto; destruct e2; cbn [opnd sub_] in *; auto; first [apply H0|apply H]; auto; apply W2.
  - destruct W as [_ [H2 [_ [_ H5]]]]. destruct D as [D1 D2]. split; auto. revert H H5 D2. clear. induction es as [|e r IH]; intros HF H5 D2; auto.
    inversion HF; subst. destruct H5 as [? [? ?]]. destruct D2. split; [auto|]. apply IH; auto.
Qed.
End StaticS.

Inductive F3 {A B C} (R : A -> B -> C -> Prop) : list A -> list B -> list C -> Prop :=
| F3_nil : F3 R [] [] []
| F3_cons : forall a b c la lb lc, R a b c -> F3 R la lb lc -> F3 R (a :: la) (b :: lb) (c :: lc).
Lemma F3_len : forall {A B C} (R : A -> B -> C -> Prop) a b c, F3 R a b c -> length a = length b /\ length b = length c.
Proof. intros A B C R a b c H. induction H; cbn [length]; auto. destruct IHF3. auto. Qed.

Section Stmts.
Context {PF : PrimeField}.
Variable ext : Z -> list F -> option (list F).
Variable w : env.
Variable HON : Prop.
Variable ANY : Prop.
Notation safe_stmt := (safe_stmt ANY).
Notation safe_stmts := (safe_stmts ANY).
Hypothesis Hreq : (3 <= required_bits)%nat.
Add Field Fcgp : F_field_th.
Notation solve := (exec_solver ext).
Notation EB := (EB w).
Notation ok := (ok ext w HON).
Notation Inv := (Inv w HON).

(** Steps that change the environment, with their logs. *)
Definition tri (I : st -> Prop) (C : Prop) {A} (m : M A) (P : A -> st -> list (Z * list F) -> Prop) : Prop :=
  forall s a s' em, I s -> m s = Some (a, s', em) ->
    (Forall (gsat w) em -> (HON -> Forall (hon solve w) em) -> P a s' (flogs_of w em)) /\
    (HON -> C -> Forall (hon solve w) em -> Forall (fsat w) em).
Lemma flogs_app : forall a b, flogs_of w (a ++ b) = flogs_of w a ++ flogs_of w b.
Proof. intros. unfold flogs_of. apply flat_map_app. Qed.
Lemma flogs_quiet : forall em, Forall quiet em -> flogs_of w em = [].
Proof. induction 1 as [|s r H _ IH]; auto. destruct s; cbn in *; auto. contradiction. Qed.
Lemma tri_bind : forall I (C : Prop) A B (m : M A) (k : A -> M B) P Q,
  tri I C m P -> (forall a lg, tri (fun s => P a s lg) C (k a) (fun b s lg' => Q b s (lg ++ lg'))) -> tri I C (bind m k) Q.
Proof.
  intros I C A B m k P Q Hm Hk s b s' em Hi E. unfold bind in E.
  destruct (m s) as [[[a s1] o1]|] eqn:E1; [|discriminate].
  destruct (k a s1) as [[[b' s2] o2]|] eqn:E2; [|discriminate]. injection E as <- <- <-.
  destruct (Hm s a s1 o1 Hi E1) as [H1 H2]. split.
  - intros Hs Hh. apply Forall_app in Hs as [Hs1 Hs2].
    assert (Hh1 : HON -> Forall (hon solve w) o1) by (intros h; specialize (Hh h); apply Forall_app in Hh; tauto).
    assert (Hh2 : HON -> Forall (hon solve w) o2) by (intros h; specialize (Hh h); apply Forall_app in Hh; tauto).
    destruct (Hk a (flogs_of w o1) s1 b' s2 o2 (H1 Hs1 Hh1) E2) as [H3 _]. rewrite flogs_app. auto.
  - intros h HC Hh. apply Forall_app in Hh as [Hh1 Hh2]. specialize (H2 h HC Hh1).
    destruct (Hk a (flogs_of w o1) s1 b' s2 o2 (H1 (hon_gsat _ _ _ Hh1 H2) (fun _ => Hh1)) E2) as [_ H4]. apply Forall_app; auto.
Qed.
Lemma tri_ok : forall rho G (C : Prop) A (m : M A) P, ok rho G C m P -> emq m ->
  tri (Inv rho G) C m (fun a s lg => Inv rho G s /\ P a /\ lg = []).
Proof.
  intros rho G C A m P Hm Hq s a s' em Hi E. destruct (Hm s a s' em Hi E) as [H1 H2]. split; auto.
  intros Hs Hh. destruct (H1 Hs Hh). split; [auto|]. split; [auto|]. apply flogs_quiet. eapply Hq; eauto.
Qed.
Lemma tri_weaken : forall (I : st -> Prop) (C : Prop) A (m : M A) (P Q : A -> st -> list (Z * list F) -> Prop), tri I C m P -> (forall a s lg, P a s lg -> Q a s lg) -> tri I C m Q.
Proof. intros I C A m P Q Hm H s a s' em Hi E. destruct (Hm s a s' em Hi E) as [H1 H2]. split; auto. Qed.
Lemma tri_ret : forall (I : st -> Prop) (C : Prop) A (a : A) (P : A -> st -> list (Z * list F) -> Prop), (forall s, I s -> P a s []) -> tri I C (ret a) P.
Proof. intros I C A a P H s x s' em Hi E. injection E as <- <- <-. split; auto. Qed.
(** preconditions carrying pure facts *)
Lemma tri_ok_bind : forall rho G (C : Prop) A B (m : M A) (k : A -> M B) P Q, ok rho G C m P -> emq m ->
  (forall a, P a -> tri (Inv rho G) C (k a) Q) -> tri (Inv rho G) C (bind m k) Q.
Proof.
  intros rho G C A B m k P Q Hm Hq Hk. eapply tri_bind; [apply tri_ok; eauto|].
  intros a lg s b s' em [Hi [Ha ->]] E. cbn [app]. exact (Hk a Ha s b s' em Hi E).
Qed.

(** ** Results of built-in functions *)
Definition kres (k : kind) (v : val) (u : fu) : Prop :=
  match k, v with
  | KF, VF x => feval w (getf u) = x
  | KB, VB b => feval w (getf u) = f_of_bool b
  | KU a, VU n => urel w a n u
  | _, _ => False
  end.
Lemma kres_vrel : forall k v u, kres k v u -> vrel k v (feval w (getf u)).
Proof. intros [| |a] [] u H; cbn in *; auto. apply H. Qed.
Lemma flat_list : forall rho G (C : Prop) es, Forall (wt G) es -> Forall (divs rho) es -> (HON -> C -> sem_list rho es <> None) ->
  ok rho G C (mapM flat es) (fun us => exists vs, sem_list rho es = Some vs /\ F3 kres (map zkind es) vs us).
Proof.
  intros rho G C es HW HD HC. eapply ok_weaken; [apply (ok_mapM ext w HON rho G C _ _ flat (fun e u => exists v, sem rho e = Some v /\ ures w e v u))|].
  - intros e He. rewrite Forall_forall in HW, HD. apply (flat_ok ext w HON rho G Hreq e C); auto.
    intros h hc E. apply (HC h hc). clear HC HW HD. unfold sem_list. induction es as [|e0 r IH]; [contradiction|]. cbn [map opt_list].
    destruct He as [->|He]; [rewrite E; auto|]. rewrite (IH He). destruct (sem rho e0); auto.
  - cbn beta. intros us HF. clear HC HW HD. induction HF as [|e u es us [v [Sv Hv]] HF [vs [Svs IH]]]; [exists []; split; [reflexivity|constructor]|].
    exists (v :: vs). unfold sem_list in *. cbn [map opt_list]. rewrite Sv, Svs. split; auto. constructor; auto.
    unfold ures, kres in *. destruct (zkind e), v; auto. apply Hv.
Qed.
Lemma flat_list' : forall rho G (C : Prop) es, Forall (out_ok G) es -> Forall (divs rho) es -> (HON -> C -> sem_list rho es <> None) ->
  ok rho G C (mapM (fun e => assertM (negb (is_uint e) || is_red e) ;;; flat e) es) (fun us => exists vs, sem_list rho es = Some vs /\ F3 kres (map zkind es) vs us).
Proof.
  intros rho G C es HW HD HC. eapply ok_weaken; [apply (ok_mapM ext w HON rho G C _ _ _ (fun e u => exists v, sem rho e = Some v /\ ures w e v u))|].
  - intros e He. rewrite Forall_forall in HW, HD. eapply ok_bind; [apply ok_assert|]. intros tt0 _. apply (flat_ok ext w HON rho G Hreq e C); auto.
    + apply HW; auto.
    + intros h hc E. apply (HC h hc). clear HC HW HD. unfold sem_list. induction es as [|e0 r IH]; [contradiction|]. cbn [map opt_list].
      destruct He as [->|He]; [rewrite E; auto|]. rewrite (IH He). destruct (sem rho e0); auto.
  - cbn beta. intros us HF. clear HC HW HD. induction HF as [|e u es us [v [Sv Hv]] HF [vs [Svs IH]]]; [exists []; split; [reflexivity|constructor]|].
    exists (v :: vs). unfold sem_list in *. cbn [map opt_list]. rewrite Sv, Svs. split; auto. constructor; auto.
    unfold ures, kres in *. destruct (zkind e), v; auto. apply Hv.
Qed.
Lemma F3_bools : forall n vs us, F3 kres (repeat KB n) vs us -> exists bs, vs = map VB bs /\ length bs = n /\ EB (map getf us) bs.
Proof.
  induction n as [|n IH]; intros vs us H; inversion H as [|? ? ? ? ? ? Hk Hr]; subst; [exists []; repeat split; auto|].
  destruct (IH _ _ Hr) as [bs [-> [Hl Hb]]]. destruct b; try contradiction. exists (b :: bs). cbn [map length]. repeat split; auto. apply EB_cons. auto.
Qed.
Lemma bools_F3 : forall bs zs, EB zs bs -> F3 kres (repeat KB (length bs)) (map VB bs) (map (fun b => UF b None) zs).
Proof.
  induction bs as [|b bs IH]; intros zs H.
  - destruct zs; [constructor|discriminate].
  - apply EB_inv in H as [x [r [-> [Hx Hr]]]]. cbn [length repeat map]. constructor; auto.
Qed.
Lemma bools_of_map : forall bs, bools_of (map VB bs) = Some bs.
Proof. unfold bools_of. induction bs; cbn [map opt_list]; auto. rewrite IHbs. auto. Qed.
Lemma mapM_const : forall rho G (C : Prop) es bs, EB es bs -> ok rho G C (mapM bool_const es) (fun cs => cs = bs).
Proof.
  intros rho G C. induction es as [|e r IH]; intros bs H.
  - destruct bs; [apply ok_ret; auto|discriminate].
  - apply EB_inv' in H as [b [s [-> [Hb Hs]]]]. cbn [mapM]. eapply ok_bind with (P := fun c => c = b).
    { unfold bool_const. destruct e; try apply ok_fail. cbn [feval] in Hb. subst c.
      destruct (Feqb_spec (f_of_bool b) f1) as [E|_]; [apply ok_ret; destruct b; auto; exfalso; apply F_1_neq_0; auto|].
      destruct (Feqb_spec (f_of_bool b) f0) as [E|_]; [apply ok_ret; destruct b; auto; exfalso; apply F_1_neq_0; auto|apply ok_fail]. }
    intros c ->. eapply ok_bind; [apply (IH _ Hs)|]. intros cs ->. apply ok_ret. auto.
Qed.
(** The bits unpack gives are those of an integer congruent to the value; honest bits are those of the value. *)
Lemma ok_unpack' : forall rho G (C : Prop) n x, (HON -> C -> fval (feval w x) < pow2 n) ->
  ok rho G C (unpack n x) (fun zs => exists bs, EB zs bs /\ length bs = n /\ feval w x = of_Z (bv bs) /\ (HON -> bs = bits_be n (fval (feval w x)))).
Proof.
  intros rho G C n x HC. unfold unpack. eapply ok_bind; [apply ok_define|]. intros v Hv.
  eapply ok_bind; [apply ok_freshn|]. intros vs Hl. cbn beta in Hl. eapply ok_bind; [apply ok_dir|]. intros tt0 Hd.
  cbn [map feval exec_solver] in Hd. rewrite Hv in Hd.
  assert (Hh : HON -> EB (map XId vs) (bits_be n (fval (feval w x)))).
  { intros h. specialize (Hd h). injection Hd as Hd. apply EB_ids. rewrite <- Hd, solve_bits_eq. auto. }
  eapply ok_bind with (P := fun _ => exists bs, EB (map XId vs) bs).
  { rewrite <- (map_map XId bitness). eapply ok_weaken; [apply ok_bitness|].
    - intros h hc. exists (rev (bits_be n (fval (feval w x)))). unfold CgBase.EB in *. rewrite map_rev, map_rev, (Hh h), <- map_rev. auto.
    - cbn beta. intros tt1 Hsq. apply squares_bits in Hsq as [bs Hbs]. exists (rev bs). unfold CgBase.EB in *. rewrite map_rev in Hbs. apply (f_equal (@rev F)) in Hbs.
      rewrite <- map_rev, rev_involutive in Hbs. rewrite Hbs. symmetry. apply map_rev. }
  intros tt1 [bs Hbs]. pose proof (EB_length w _ _ Hbs) as Hlb. rewrite map_length, Hl in Hlb.
  eapply ok_bind; [apply ok_cond|].
  { intros h hc. pose proof (Hh h) as E. pose proof (EB_inj w _ _ _ Hbs E) as ->. cbn [feval one]. rewrite (ffb_bits w _ _ Hbs), Hv, bv_bits_be.
    rewrite Z.mod_small, of_Z_fval by (pose proof (fval_range (feval w x)); specialize (HC h hc); lia). ring. }
  intros tt2 E. cbn beta in E. cbn [feval one] in E. rewrite (ffb_bits w _ _ Hbs), Hv in E.
  assert (Ex : feval w x = of_Z (bv bs)) by (rewrite <- E; ring).
  eapply ok_weaken; [apply (ok_mapM ext w HON rho G C _ _ _ (fun v e => feval w e = w v))|].
  - intros v0 _. eapply ok_bind; [apply ok_newdef|]. intros u Hu. apply ok_ret. exact Hu.
  - cbn beta. intros zs HF. exists bs. split; [|split; [symmetry; exact Hlb|split; [exact Ex|intros h; exact (EB_inj w _ _ _ Hbs (Hh h))]]].
    unfold CgBase.EB in *. rewrite <- Hbs, map_map. clear - HF. induction HF; cbn [map]; auto. rewrite IHHF, H. auto.
Qed.
Lemma ok_unpack : forall rho G (C : Prop) n x, HON \/ (n < required_bits)%nat -> (HON -> C -> fval (feval w x) < pow2 n) ->
  ok rho G C (unpack n x) (fun zs => fval (feval w x) < pow2 n /\ EB zs (bits_be n (fval (feval w x)))).
Proof.
  intros rho G C n x Hn HC. eapply ok_weaken; [apply (ok_unpack' rho G C n x HC)|]. cbn beta. intros zs [bs [Hb [Hl [Ex Hh]]]].
  assert (E : bs = bits_be n (fval (feval w x)) /\ fval (feval w x) < pow2 n); [|destruct E as [<- E2]; split; [exact E2|exact Hb]].
  pose proof (bv_range bs) as Hbr. rewrite Hl in Hbr. destruct Hn as [h|Hn].
  - specialize (Hh h). split; [exact Hh|]. rewrite Hh, bv_bits_be in Ex. pose proof (fval_range (feval w x)) as R. pose proof (pow2_pos n) as P.
    assert (Q : 0 <= fval (feval w x) mod pow2 n <= fval (feval w x)) by (split; [apply Z.mod_pos_bound; exact P|apply Z.mod_le; lia]).
    apply (f_equal fval) in Ex. rewrite fval_of_Z_small in Ex by lia. pose proof (Z.mod_pos_bound (fval (feval w x)) (pow2 n) P). lia.
  - pose proof (pow2_small_lt_pp n Hn) as Hp. assert (Ev : fval (feval w x) = bv bs) by (rewrite Ex; apply fval_of_Z_small; lia).
    rewrite Ev. split; [rewrite <- Hl; symmetry; apply bits_be_bv|lia].
Qed.

Definition narrow (em : embed) : Prop := match em with EUnpack n => (n < required_bits)%nat | _ => True end.
Lemma ok_embed : forall rho G (C : Prop) em ks vs ps, HON \/ narrow em -> embed_args em ks -> F3 kres ks vs ps ->
  (em = EFieldToBool -> forall x, vs = [VF x] -> x = f0 \/ x = f1) ->
  (HON -> C -> sem_embed em vs <> None) ->
  ok rho G C (embed_call em ps) (fun rs => exists vs', sem_embed em vs = Some vs' /\ F3 kres (embed_kinds em) vs' rs).
Proof.
  intros rho G C em ks vs ps Hna Ha HF Hs HC. destruct em as [|n|n|n|n]; cbn [embed_args embed_kinds] in *.
  - subst ks. inversion HF as [|? v u ? ? ? Hk Hr]; subst. inversion Hr; subst. destruct v; try contradiction. cbn [kres] in Hk.
    cbn [embed_call sem_embed]. apply ok_ret. destruct (Hs eq_refl x eq_refl) as [E|E]; rewrite E in *.
    + exists [VB false]. split; [destruct (Feqb_spec f0 f0); [auto|congruence]|]. constructor; [exact Hk|constructor].
    + exists [VB true]. split; [destruct (Feqb_spec f1 f0) as [E'|_]; [exfalso; apply F_1_neq_0; auto|]; destruct (Feqb_spec f1 f1); [auto|congruence]|].
      constructor; [exact Hk|constructor].
  - destruct Ha as [a [-> Hw]]. inversion HF as [|? v u ? ? ? Hk Hr]; subst. inversion Hr; subst. destruct v as [| |m]; try contradiction. cbn [kres] in Hk.
    cbn [embed_call sem_embed]. unfold bitsM. destruct (getbits u) as [bs|] eqn:Eb; [|apply ok_fail].
    eapply ok_bind with (P := fun b => EB b (bits_be (uw a) m)); [apply ok_ret; exact (proj2 Hk bs Eb)|]. intros bs' Hbs. cbn beta in Hbs. eapply ok_bind; [apply ok_assert|]. intros tt0 Hlen. apply ok_ret.
    eexists; split; [reflexivity|]. pose proof (bools_F3 _ _ Hbs) as H3. rewrite bits_be_length in H3. exact H3.
  - destruct Ha as [Hn1 [Hn2 ->]]. destruct (F3_bools _ _ _ HF) as [bs [-> [Hl Hb]]]. cbn [sem_embed embed_call]. rewrite bools_of_map in *.
    assert (El : Nat.eqb (length bs) n = true) by (apply Nat.eqb_eq; auto). rewrite El in *. clear El.
    eapply ok_bind; [apply ok_assert|]. intros tt0 Hlen. apply ok_ret. eexists; split; [reflexivity|]. constructor; [|constructor].
    pose proof (bv_range bs) as Hbr. rewrite Hl in Hbr. pose proof (pow2_small_lt_pp n ltac:(lia)) as Hp. pose proof (pow2_pos n).
    cbn [kres]. split; cbn [getf getbits full_ann uw umax].
    + exists (bv bs). unfold ubound. cbn [full_ann ured uw umax]. rewrite fval_of_Z_small by lia.
      split; [lia|]. split; [lia|]. split; [apply Z.mod_small; lia|]. apply ffb_bits; auto.
    + intros b E. injection E as <-. rewrite <- Hl at 1. rewrite bits_be_bv. auto.
  - destruct Ha as [Hn ->]. destruct (F3_bools _ _ _ HF) as [bs [-> [Hl Hb]]]. cbn [sem_embed embed_call]. rewrite bools_of_map in *.
    assert (El : Nat.eqb (length bs) (2 * n) = true) by (apply Nat.eqb_eq; auto). rewrite El in *. clear El.
    rewrite <- !firstn_map, <- !skipn_map.
    eapply ok_bind; [apply (ok_defines ext w HON rho G C _ (firstn n bs)); apply EB_firstn; auto|]. intros vs Hvs. cbn beta in Hvs.
    eapply ok_bind; [apply (mapM_const _ _ C _ (skipn n bs)); apply EB_skipn; auto|]. intros cs ->.
    eapply ok_bind; [apply (ok_constant_le_check ext w HON rho G Hreq C _ _ _ Hvs)|]. intros conds [cc [Hcc [Hcl [_ Hiff]]]].
    eapply ok_bind; [apply ok_eq_check|]. intros r Hr. cbn beta in Hr. apply ok_ret. eexists; split; [reflexivity|]. constructor; [|constructor].
    cbn [kres getf]. rewrite Hr. f_equal. cbn [feval]. rewrite (fsum_bits w _ _ Hcc).
    pose proof (EB_length w _ _ Hcc) as Hlc. pose proof (EB_length w _ _ Hvs) as Hlv. rewrite firstn_length in Hlv.
    pose proof (req_lt_pp Hreq) as Hpp. pose proof (count_len cc) as Hcn.
    rewrite !fval_of_Z_small by lia. destruct (Z.leb_spec (bv (firstn n bs)) (bv (skipn n bs))) as [Hle|Hgt].
    + apply Hiff in Hle. apply count_full in Hle. apply Z.eqb_eq. lia.
    + apply Z.eqb_neq. intros E. assert (Hc : length (filter (fun b => b) cc) = length cc) by lia. apply count_full in Hc. apply Hiff in Hc. lia.
  - destruct Ha as [Hn ->]. inversion HF as [|? v u ? ? ? Hk Hr]; subst. inversion Hr; subst. destruct v; try contradiction. cbn [kres] in Hk.
    cbn [embed_call sem_embed] in *. eapply ok_bind; [apply ok_unpack; [exact Hna|]|].
    + intros h hc. specialize (HC h hc). rewrite Hk. unfold pow2. destruct (Z.ltb_spec (fval x) (2 ^ Z.of_nat n)); [auto|congruence].
    + intros zs [Hlt Hzs]. rewrite Hk in *. apply ok_ret. unfold pow2 in Hlt. apply Z.ltb_lt in Hlt. rewrite Hlt. eexists; split; [reflexivity|].
      pose proof (bools_F3 _ _ Hzs) as H3. rewrite bits_be_length in H3. exact H3.
Qed.

(** ** Binding names *)
Lemma tri_bind_name : forall rho G (C : Prop) x e k y, vrel k y (feval w e) ->
  tri (Inv rho G) C (bind_name x e) (fun v s lg => Inv (upd_s rho x y) (tupd G x k) s /\ w v = feval w e /\ lg = []).
Proof.
  intros rho G C x e k y Hv.
  assert (Hl : forall s v, Inv rho G s -> w v = feval w e -> Inv (upd_s rho x y) (tupd G x k) (mkSt (nxt s) ((x, v) :: lay s) (cache s))).
  { intros s v [Hc Hl] Hw. split; [exact Hc|]. intros z k' Hz. cbn [lay lookup]. unfold tupd in Hz. unfold upd_s. destruct (Z.eqb_spec z x) as [->|Hn].
    - injection Hz as <-. exists v, y. rewrite Hw. auto.
    - apply Hl; auto. }
  assert (Hnew : forall e', e' = e -> tri (Inv rho G) C (v <- fresh ;; set_lay x v ;;; emit (XDef v e' None) ;;; ret v)
     (fun v s lg => Inv (upd_s rho x y) (tupd G x k) s /\ w v = feval w e /\ lg = [])).
  { intros e' -> s a s' em [Hc Hll] E. injection E as <- <- <-. split.
    - intros Hs Hh. inversion Hs as [|? ? H1 _]; subst. cbn in H1. split; [|auto]. apply (Hl (mkSt (S (nxt s)) (lay s) (cache s))); auto. split; auto.
    - intros h hc Hh. inversion Hh as [|? ? H1 _]; subst. constructor; [exact H1|constructor]. }
  unfold bind_name. destruct e; try (apply Hnew; reflexivity).
  intros s a s' em Hi E. injection E as <- <- <-. split; [|constructor]. intros _ _. split; [|auto]. apply Hl; auto.
Qed.
Lemma tri_bind_names : forall (C : Prop) xs ks ys rs rho G, F3 kres ks ys rs -> length xs = length rs ->
  tri (Inv rho G) C (zipM (fun x u => bind_name x (getf u)) xs rs)
    (fun vs s lg => Inv (upds_s rho xs ys) (tupds G xs ks) s /\ map w vs = map (fun u => feval w (getf u)) rs /\ lg = []).
Proof.
  intros C. induction xs as [|x xs IH]; intros ks ys rs rho G HF Hl.
  - destruct rs; [|discriminate]. inversion HF; subst. apply tri_ret. cbn. auto.
  - destruct rs as [|u rs]; [discriminate|]. inversion HF as [|k y u' ks' ys' rs' Hk Hr]; subst. cbn [zipM upds_s tupds].
    eapply tri_bind; [apply (tri_bind_name rho G C x (getf u) k y (kres_vrel _ _ _ Hk))|].
    intros v lg. intros s a s' em [Hi [Hv ->]] E. cbn [app].
    assert (T : tri (Inv (upd_s rho x y) (tupd G x k)) C (zs <- zipM (fun x u => bind_name x (getf u)) xs rs ;; ret (v :: zs))
      (fun vs s lg => Inv (upds_s (upd_s rho x y) xs ys') (tupds (tupd G x k) xs ks') s /\ map w vs = map (fun u => feval w (getf u)) (u :: rs) /\ lg = [])).
    { eapply tri_bind; [apply (IH ks' ys' rs _ _ Hr); cbn in Hl; lia|]. intros vs lg. apply tri_ret. intros s0 [Hi0 [Hm ->]]. split; [auto|].
      cbn [map app]. rewrite Hv, Hm. auto. }
    exact (T s a s' em Hi E).
Qed.

(** ** Statements *)
Definition outs_ok (o : outs_s) : Prop := os_ret o = map (fun i => w (vpub i)) (seq 0 (length (os_ret o))).
Definition post (o : outs_s) (so : option outs_s) (G : tenv) (s : st) (lg : list (Z * list F)) : Prop :=
  exists o', so = Some o' /\ Inv (os_env o') G s /\ outs_ok o' /\ os_log o' = os_log o ++ lg.
Definition snarrow (s : zstmt) : Prop := match s with ZEmbed _ em _ => narrow em | _ => True end.
Definition stmt_ok (s : zstmt) : Prop := forall G o (C : Prop), HON \/ (ANY /\ strict_s s = true /\ snarrow s) -> wts G s -> safe_stmt o s -> outs_ok o ->
  (HON -> C -> sem_stmt o s <> None) ->
  tri (Inv (os_env o) G) C (flat_stmt s) (fun _ st' lg => post o (sem_stmt o s) (tpost G s) st' lg).
Lemma out_wt : forall G es, Forall (out_ok G) es -> Forall (wt G) es.
Proof. intros G es H. eapply Forall_impl; [|exact H]. intros e [H1 _]. auto. Qed.
Lemma red_vals : forall es G vs us, Forall (out_ok G) es -> F3 kres (map zkind es) vs us ->
  map (fun u => feval w (getf u)) us = map val_f vs.
Proof.
  induction es as [|e es IH]; intros G vs us HW HF; cbn [map] in HF; inversion HF as [|k v u ks vs' us' Hk Hr]; subst; auto.
  inversion HW as [|? ? [_ Hred] HW']; subst. cbn [map]. rewrite (IH _ _ _ HW' Hr). f_equal.
  destruct (zkind e), v; try contradiction; cbn [kres val_f] in *; auto. apply (urep_red Hreq _ _ _ Hred (proj1 Hk)).
Qed.
Lemma zip2_defs : forall us i, Forall (fsat w) (zip2 (fun i u => XDef (vpub i) (getf u) None) (seq i (length us)) us) ->
  map (fun i => w (vpub i)) (seq i (length us)) = map (fun u => feval w (getf u)) us.
Proof.
  induction us as [|u us IH]; intros i H; cbn [length seq zip2 map] in *; auto. inversion H as [|? ? H1 H2]; subst. rewrite (IH (S i) H2). f_equal. exact H1.
Qed.
Lemma zip2_hon : forall us i, Forall (hon solve w) (zip2 (fun i u => XDef (vpub i) (getf u) None) (seq i (length us)) us) ->
  Forall (fsat w) (zip2 (fun i u => XDef (vpub i) (getf u) None) (seq i (length us)) us).
Proof. induction us as [|u us IH]; intros i H; cbn [length seq zip2] in *; constructor; inversion H; subst; auto. Qed.
Lemma zip2_gsat : forall us i, Forall (gsat w) (zip2 (fun i u => XDef (vpub i) (getf u) None) (seq i (length us)) us) ->
  Forall (fsat w) (zip2 (fun i u => XDef (vpub i) (getf u) None) (seq i (length us)) us).
Proof. induction us as [|u us IH]; intros i H; cbn [length seq zip2] in *; constructor; inversion H; subst; auto. Qed.
Lemma zip2_quiet : forall (us : list fu) i, Forall quiet (zip2 (fun i u => XDef (vpub i) (getf u) None) (seq i (length us)) us).
Proof. induction us as [|u us IH]; intros i; cbn [length seq zip2]; constructor; cbn; auto. Qed.

Lemma stmt_Return : forall es, stmt_ok (ZReturn es).
Proof.
  intros es G o C _ HW HS Ho HC. cbn [flat_stmt sem_stmt tpost wts safe_stmt] in *.
  eapply tri_ok_bind; [apply (flat_list (os_env o) G C es (out_wt _ _ HW) HS)|apply emq_mapM'; intros; apply emq_flat|].
  { intros h hc E. apply (HC h hc). rewrite E. auto. }
  intros us [vs [Sv HF]]. intros s a s' em Hi E. injection E as <- <- <-. split.
  - intros Hs Hh. rewrite (flogs_quiet _ (zip2_quiet us 0)). exists (mkOuts (os_env o) (map val_f vs) (os_log o)). rewrite Sv.
    split; [auto|]. split; [exact Hi|]. split; [|cbn; rewrite app_nil_r; auto]. unfold outs_ok. cbn [os_ret].
    pose proof (red_vals _ _ _ _ HW HF) as E1. pose proof (zip2_defs us 0 (zip2_gsat _ _ Hs)) as E2. rewrite map_length.
    assert (El : length vs = length us) by (destruct (F3_len _ _ _ _ HF); auto). rewrite El. congruence.
  - intros h hc Hh. apply zip2_hon. auto.
Qed.
Lemma stmt_Log : forall f es, stmt_ok (ZLog f es).
Proof.
  intros f es G o C _ HW HS Ho HC. cbn [flat_stmt sem_stmt tpost wts safe_stmt] in *.
  eapply tri_ok_bind; [apply (flat_list (os_env o) G C es (out_wt _ _ HW) HS)|apply emq_mapM'; intros; apply emq_flat|].
  { intros h hc E. apply (HC h hc). rewrite E. auto. }
  intros us [vs [Sv HF]]. intros s a s' em Hi E. injection E as <- <- <-. split.
  - intros Hs Hh. exists (mkOuts (os_env o) (os_ret o) (os_log o ++ [(f, map val_f vs)])). rewrite Sv.
    split; [auto|]. split; [exact Hi|]. split; [exact Ho|]. cbn. rewrite map_map. rewrite (red_vals _ _ _ _ HW HF). auto.
  - intros h hc Hh. constructor; [exact I|constructor].
Qed.
Lemma stmt_Assert : forall e err, stmt_ok (ZAssert e err).
Proof.
  intros e err G o C _ [HW HK] HS Ho HC. cbn [flat_stmt sem_stmt tpost safe_stmt] in *.
  eapply tri_weaken; [apply (tri_ok (os_env o) G); [apply (ok_assertion ext w HON (os_env o) G Hreq e C err HW HK HS)|apply emq_assertion]|].
  - intros h hc. specialize (HC h hc). destruct (sem (os_env o) e) as [[|[|]|]|]; congruence.
  - cbn beta. intros tt0 s lg [Hi [Hs ->]]. rewrite Hs. exists o. rewrite app_nil_r. auto.
Qed.
Lemma stmt_Def : forall x e, stmt_ok (ZDef x e).
Proof.
  intros x e G o C _ HW HS Ho HC. cbn [flat_stmt sem_stmt tpost wts safe_stmt] in *.
  intros s a s' em Hi E.
  (* the flat result *)
  assert (T : tri (Inv (os_env o) G) C (u <- flat e ;; v <- bind_name x (getf u) ;; match getbits u with Some bits => cput (XId v) bits (def_exact e u) | None => ret tt end)
     (fun _ st' lg => post o (match sem (os_env o) e with Some v => Some (mkOuts (upd_s (os_env o) x v) (os_ret o) (os_log o)) | None => None end) (tupd G x (zkind e)) st' lg)).
  2:{ exact (T s a s' em Hi E). }
  clear s a s' em Hi E.
  eapply tri_ok_bind with (P := fun u => (exists v, sem (os_env o) e = Some v /\ ures w e v u) /\ (match zkind e with KU _ => True | _ => getbits u = None end)).
  - intros s u s' em Hi E. assert (HC' : HON -> C -> sem (os_env o) e <> None) by (intros h hc X; apply (HC h hc); rewrite X; auto).
    destruct (flat_ok ext w HON (os_env o) G Hreq e C HW HS HC' s u s' em Hi E) as [H1 H2]. split; auto.
    intros Hs Hh. destruct (H1 Hs Hh) as [Hi' Hu]. split; [auto|]. split; [auto|].
    destruct (zkind e) eqn:K; auto; apply (flat_nobits e) with (s := s) (s' := s') (em := em); auto; rewrite K; auto.
  - apply emq_flat.
  - intros u [[y [Sy Hu]] Hnb]. rewrite Sy.
    assert (Hk : vrel (zkind e) y (feval w (getf u))).
    { unfold ures in Hu. destruct (zkind e), y; cbn [vrel]; try contradiction; try apply Hu. }
    eapply tri_bind; [apply (tri_bind_name _ _ _ _ _ _ _ Hk)|].
    intros v lg s a s' em [Hi [Hv ->]] E. cbn [app].
    assert (T2 : tri (Inv (upd_s (os_env o) x y) (tupd G x (zkind e))) C (match getbits u with Some bits => cput (XId v) bits (def_exact e u) | None => ret tt end)
       (fun _ st' lg => post o (Some (mkOuts (upd_s (os_env o) x y) (os_ret o) (os_log o))) (tupd G x (zkind e)) st' lg)).
    2:{ exact (T2 s a s' em Hi E). }
    assert (Hfin : forall st', Inv (upd_s (os_env o) x y) (tupd G x (zkind e)) st' -> post o (Some (mkOuts (upd_s (os_env o) x y) (os_ret o) (os_log o))) (tupd G x (zkind e)) st' []).
    { intros st' Hi'. eexists. split; [reflexivity|]. cbn [os_env os_ret os_log]. rewrite app_nil_r. auto. }
    destruct (getbits u) as [bits|] eqn:Eb; [|apply tri_ret; auto].
    destruct (zkind e) as [| |an] eqn:K; try discriminate. unfold ures in Hu. rewrite K in Hu. destruct y as [| |n]; try contradiction.
    destruct Hu as [Hur Hub]. pose proof (urep_range _ _ _ Hur) as Rn. specialize (Hub bits Eb).
    pose proof (wt_kind _ _ HW) as Ho'. rewrite K in Ho'. destruct Ho' as [Ho1 [Ho2 Ho3]].
    pose proof (EB_length w _ _ Hub) as Hlen. rewrite bits_be_length in Hlen.
    assert (Hbv : bv (bits_be (uw an) n) = n) by (rewrite bv_bits_be; apply Z.mod_small; auto).
    destruct Hur as [N [HN [HNp [HNn HNv]]]].
    assert (HNf : fval (w v) = N) by (rewrite Hv, HNv; apply fval_of_Z_small; lia).
    eapply tri_weaken; [apply (tri_ok _ _ C); [apply ok_cput|apply emq_cput]|].
    + exists (bits_be (uw an) n). split; [exact Hub|]. split; [lia|]. rewrite Hbv, Hlen. cbn [feval]. rewrite HNf.
      pose proof (pow2_small_lt_pp (uw an) ltac:(lia)).
      assert (Hxn : def_exact e u = true -> N < pow2 (uw an)).
      { intros Hex. unfold def_exact in Hex. destruct u as [f ob|bs].
      * unfold is_red in Hex. rewrite K in Hex. unfold ubound in HN. apply orb_true_iff in Hex as [Hex|Hex].
        -- destruct (ured an); try discriminate. lia.
        -- apply Nat.leb_le in Hex. pose proof (fbits_spec (umax an)). pose proof (pow2_le _ _ Hex). destruct (ured an); lia.
      * cbn [getbits] in Eb. injection Eb as ->. cbn [getf] in HNv. rewrite (ffb_bits w _ _ Hub), Hbv in HNv.
        assert (n = N) by (apply (f_equal fval) in HNv; rewrite !fval_of_Z_small in HNv by lia; auto). lia. }
      split; [intros _; lia|]. split; [intros _; split; auto|]. intros Hex. specialize (Hxn Hex). rewrite Hv, HNv. rewrite Z.mod_small in HNn by lia. congruence.
    + cbn beta. intros tt0 st' lg [Hi' [_ ->]]. auto.
Qed.
Lemma stmt_Embed : forall xs em es, stmt_ok (ZEmbed xs em es).
Proof.
  intros xs em es G o C Hna [HW [Ha [Hlx Hssa]]] [HS Hsafe] Ho HC. cbn [tpost].
  assert (Hs1 : HON -> C -> sem_list (os_env o) es <> None).
  { intros h hc X. apply (HC h hc). cbn [sem_stmt]. rewrite X. auto. }
  cbn [flat_stmt].
  eapply tri_ok_bind; [apply (flat_list' (os_env o) G C es HW HS Hs1)|apply emq_mapM'; intros e; apply emq_bind; [apply emq_assert|intros; apply emq_flat]|].
  intros ps [vs [Sv HF]].
  assert (Hs2 : HON -> C -> sem_embed em vs <> None).
  { intros h hc X. apply (HC h hc). cbn [sem_stmt]. rewrite Sv, X. auto. }
  eapply tri_ok_bind; [apply (ok_embed (os_env o) G C em _ vs ps ltac:(destruct Hna as [h|[_ [_ h]]]; [left; exact h|right; exact h]) Ha HF)|apply emq_embed|].
  { intros -> x ->. apply Hsafe. auto. }
  { auto. }
  intros rs [vs' [Se HF']].
  eapply tri_ok_bind; [apply ok_assert|apply emq_assert|]. intros tt0 Hl. apply Nat.eqb_eq in Hl.
  destruct (F3_len _ _ _ _ HF') as [L1 L2].
  assert (Hsem : sem_stmt o (ZEmbed xs em es) = Some (mkOuts (upds_s (os_env o) xs vs') (os_ret o) (os_log o))).
  { cbn [sem_stmt]. rewrite Sv, Se. assert (E : Nat.eqb (length xs) (length vs') = true) by (apply Nat.eqb_eq; lia). rewrite E. auto. }
  rewrite Hsem.
  assert (Hfin : forall st', Inv (upds_s (os_env o) xs vs') (tupds G xs (embed_kinds em)) st' ->
     post o (Some (mkOuts (upds_s (os_env o) xs vs') (os_ret o) (os_log o))) (tupds G xs (embed_kinds em)) st' []).
  { intros st' Hi'. eexists. split; [reflexivity|]. cbn [os_env os_ret os_log]. rewrite app_nil_r. auto. }
  eapply tri_bind; [apply (tri_bind_names C xs _ _ _ _ _ HF' Hl)|].
  intros names lg s a s' em' [Hi [Hn ->]] E. cbn [app].
  match type of E with ?m s = _ => assert (T : tri (Inv (upds_s (os_env o) xs vs') (tupds G xs (embed_kinds em))) C m
     (fun _ st' lg => post o (Some (mkOuts (upds_s (os_env o) xs vs') (os_ret o) (os_log o))) (tupds G xs (embed_kinds em)) st' lg)) end.
  2:{ exact (T s a s' em' Hi E). }
  clear s a s' em' Hi E.
  destruct em as [|m|m|m|m]; try (apply tri_ret; auto).
  cbn [embed_kinds] in *. cbn [length] in Hlx. destruct xs as [|x [|? ?]]; try discriminate.
  destruct vs' as [|v' [|? ?]]; try discriminate. cbn [upds_s tupds] in *. inversion Hssa as [|? ? Hx _]; subst.
  pose proof (out_wt _ _ HW) as HW'.
  assert (HW2 : Forall (wt (tupd G x (KU (full_ann m)))) es) by (eapply Forall_impl; [|exact HW']; intros e He; apply wt_upd; auto).
  assert (HS2 : Forall (divs (upd_s (os_env o) x v')) es).
  { rewrite Forall_forall in *. intros e He. apply (divs_upd G); auto. }
  assert (Sv2 : sem_list (upd_s (os_env o) x v') es = Some vs).
  { rewrite <- Sv. unfold sem_list. f_equal. apply map_ext_in. intros e He. apply (sem_upd G); auto. rewrite Forall_forall in HW'. auto. }
  eapply tri_ok_bind; [apply (flat_list _ _ C es HW2 HS2)|apply emq_mapM'; intros; apply emq_flat|].
  { intros h hc. rewrite Sv2. discriminate. }
  intros us [vs2 [Sv2' HF2]]. rewrite Sv2 in Sv2'. injection Sv2' as <-.
  destruct names as [|v names]; [intros s a s' em' Hi E; discriminate|].
  destruct Ha as [Hm1 [Hm2 Ha]]. rewrite Ha in *.
  destruct (F3_bools _ _ _ HF) as [bs [-> [Hlb Hb]]]. destruct (F3_bools _ _ _ HF2) as [bs2 [Eb [Hlb2 Hb2]]].
  assert (bs2 = bs). { clear - Eb. revert bs2 Eb. induction bs; intros [|] E; try discriminate; auto. cbn in E. injection E as <- E. f_equal; auto. }
  subst bs2. cbn [sem_embed] in Se. rewrite bools_of_map in Se.
  assert (El : Nat.eqb (length bs) m = true) by (apply Nat.eqb_eq; auto). rewrite El in Se. injection Se as <-.
  inversion HF' as [|? ? u ? ? rs' Hk Hr]; subst. inversion Hr; subst. cbn [map] in Hn. injection Hn as Hn _.
  cbn [kres] in Hk. destruct Hk as [[N [HN [HNp [HNn HNv]]]] _]. unfold ubound in HN. cbn [full_ann ured uw umax] in HN, HNn.
  pose proof (bv_range bs) as Rb. pose proof (pow2_small_lt_pp (length bs) ltac:(lia)) as Hp. pose proof (pow2_pos (length bs)) as Hp2.
  rewrite fval_of_Z_small in HN by lia. rewrite Z.mod_small in HNn by lia. subst N.
  eapply tri_weaken; [apply (tri_ok _ _ C); [apply ok_cput|apply emq_cput]|].
  - exists bs. split; [exact Hb2|]. pose proof (EB_length w _ _ Hb2) as L. rewrite L. split; [lia|]. cbn [feval]. rewrite Hn, HNv, fval_of_Z_small by lia.
    split; [intros _; lia|]. split; [|intros _; auto]. intros _. split; [symmetry; apply Z.mod_small; auto|]. intros _. lia.
  - cbn beta. intros tt1 st' lg [Hi' [_ ->]]. auto.
Qed.
Lemma tri_false : forall (C : Prop) A (m : M A) P, tri (fun _ => False) C m P.
Proof. intros C A m P s a s' em []. Qed.
(** unpack to as many bits as the field has *)
Lemma wide_unpack : forall xs n es G o (C : Prop), wts G (ZEmbed xs (EUnpack n) es) -> safe_stmt o (ZEmbed xs (EUnpack n) es) ->
  (HON -> C -> sem_stmt o (ZEmbed xs (EUnpack n) es) <> None) ->
  tri (Inv (os_env o) G) C (flat_stmt (ZEmbed xs (EUnpack n) es)) (fun _ st' lg => lg = [] /\ exists bs o', length bs = n /\ length xs = n /\
    o' = mkOuts (upds_s (os_env o) xs (map VB bs)) (os_ret o) (os_log o) /\ unpacks o (ZEmbed xs (EUnpack n) es) o' /\
    (bs = bits_be n (fval (of_Z (bv bs))) -> sem_stmt o (ZEmbed xs (EUnpack n) es) = Some o') /\
    (HON -> bs = bits_be n (fval (of_Z (bv bs)))) /\ Inv (os_env o') (tpost G (ZEmbed xs (EUnpack n) es)) st').
Proof.
  intros xs n es G o C [HW [[Hn Ha] [Hlx Hssa]]] [HS _] HC. cbn [tpost].
  assert (Hs1 : HON -> C -> sem_list (os_env o) es <> None).
  { intros h hc X. apply (HC h hc). cbn [sem_stmt]. rewrite X. auto. }
  cbn [flat_stmt].
  eapply tri_ok_bind; [apply (flat_list' (os_env o) G C es HW HS Hs1)|apply emq_mapM'; intros e; apply emq_bind; [apply emq_assert|intros; apply emq_flat]|].
  intros ps [vs [Sv HF]].
  assert (Hs2 : HON -> C -> sem_embed (EUnpack n) vs <> None).
  { intros h hc X. apply (HC h hc). cbn [sem_stmt]. rewrite Sv, X. auto. }
  destruct es as [|e [|? ?]]; try discriminate Ha. cbn [map] in Ha. injection Ha as Ha. cbn [map] in HF. rewrite Ha in HF.
  inversion HF as [|? v u ? ? ? Hk Hr]; subst. inversion Hr; subst. destruct v; try contradiction. cbn [kres] in Hk.
  eapply tri_ok_bind with (P := fun rs => exists bs, length bs = n /\ x = of_Z (bv bs) /\ (HON -> bs = bits_be n (fval x)) /\ F3 kres (repeat KB n) (map VB bs) rs); [|apply emq_embed|].
  { cbn [embed_call sem_embed] in *. eapply ok_bind; [apply (ok_unpack' (os_env o) G C n (getf u))|].
    - intros h hc. specialize (Hs2 h hc). rewrite Hk. unfold pow2. destruct (Z.ltb_spec (fval x) (2 ^ Z.of_nat n)); [auto|congruence].
    - cbn beta. intros zs [bs [Hb [Hl [Ex Hh]]]]. rewrite Hk in *. apply ok_ret. exists bs. split; [exact Hl|split; [exact Ex|split; [exact Hh|]]]. rewrite <- Hl. apply bools_F3. exact Hb. }
  intros rs [bs [Hl [Ex [Hh HF']]]].
  eapply tri_ok_bind; [apply ok_assert|apply emq_assert|]. intros tt0 Hlr. apply Nat.eqb_eq in Hlr. cbn [embed_kinds] in *. rewrite repeat_length in Hlx.
  assert (Hsl : sem (os_env o) e = Some (VF x)). { unfold sem_list in Sv. cbn [map opt_list] in Sv. destruct (sem (os_env o) e); [|discriminate Sv]. injection Sv as ->. reflexivity. }
  assert (Hfin : forall st', Inv (upds_s (os_env o) xs (map VB bs)) (tupds G xs (repeat KB n)) st' ->
    exists bs o', length bs = n /\ length xs = n /\ o' = mkOuts (upds_s (os_env o) xs (map VB bs)) (os_ret o) (os_log o) /\ unpacks o (ZEmbed xs (EUnpack n) [e]) o' /\
    (bs = bits_be n (fval (of_Z (bv bs))) -> sem_stmt o (ZEmbed xs (EUnpack n) [e]) = Some o') /\
    (HON -> bs = bits_be n (fval (of_Z (bv bs)))) /\ Inv (os_env o') (tupds G xs (repeat KB n)) st').
  { intros st' Hi'. exists bs. eexists. split; [exact Hl|]. split; [exact Hlx|]. split; [reflexivity|]. split; [|split; [|split; [rewrite <- Ex; exact Hh|exact Hi']]].
    - cbn [unpacks]. exists bs. rewrite <- Ex. split; [exact Hsl|split; [exact Hl|split; [exact Hlx|reflexivity]]].
    - intros Hc. cbn [sem_stmt]. rewrite Sv. cbn [sem_embed]. rewrite <- Ex in Hc. pose proof (bv_range bs) as R. rewrite Hl in R.
      assert (Lt : fval x < pow2 n).
      { assert (V : bv bs = fval x mod pow2 n) by (rewrite Hc at 1; apply bv_bits_be). rewrite V in Ex. pose proof (fval_range x) as Rx. pose proof (pow2_pos n) as P.
        assert (Q : 0 <= fval x mod pow2 n <= fval x) by (split; [apply Z.mod_pos_bound; exact P|apply Z.mod_le; lia]).
        apply (f_equal fval) in Ex. rewrite fval_of_Z_small in Ex by lia. pose proof (Z.mod_pos_bound (fval x) (pow2 n) P). lia. }
      unfold pow2 in Lt. apply Z.ltb_lt in Lt. rewrite Lt, <- Hc, map_length, Hl, Hlx, Nat.eqb_refl. reflexivity. }
  eapply tri_bind; [apply (tri_bind_names C xs _ _ _ _ _ HF' Hlr)|].
  intros names lg s a s' em' [Hi [Hnm ->]] E. cbn [app]. injection E as <- <- <-. split; [|constructor]. intros _ _. split; [reflexivity|]. apply Hfin. exact Hi.
Qed.
Lemma stmts_ok : forall ss, Forall stmt_ok ss -> forall G o (C : Prop), HON \/ (ANY /\ stricts ss = true) -> wtss G ss -> safe_stmts o ss -> outs_ok o ->
  (HON -> C -> sem_stmts o ss <> None) ->
  tri (Inv (os_env o) G) C (flat_stmts_z ss) (fun _ st' lg => post o (sem_stmts o ss) (fold_left tpost ss G) st' lg).
Proof.
  intros ss HF. induction HF as [|s r Hs HF IH]; intros G o C HK HW HS Ho HC; cbn [flat_stmts_z sem_stmts fold_left wtss] in *.
  - apply tri_ret. intros st0 Hi. exists o. rewrite app_nil_r. auto.
  - destruct HW as [W1 W2]. destruct HS as [S1 S2].
    assert (HKr : HON \/ (ANY /\ stricts r = true)). { destruct HK as [h|[k E]]; [left; exact h|right; split; [exact k|]]. cbn [stricts] in E. apply andb_prop in E as [_ E]. exact E. }
    assert (D : HON \/ (ANY /\ strict_s s = true /\ snarrow s) \/ (ANY /\ exists xs n es, s = ZEmbed xs (EUnpack n) es /\ uniqb xs = true /\ enforced n (combine xs (seq 0 n)) [] r = true)).
    { destruct HK as [h|[k E]]; [left; exact h|right]. cbn [stricts] in E. apply andb_prop in E as [E _]. apply andb_prop in E as [E1 E2].
      destruct s as [| | | |xs [| | | |n] es|]; try (left; split; [exact k|split; [exact E1|exact I]]). apply orb_prop in E2 as [E2|E2]; [left; split; [exact k|split; [exact E1|apply Nat.ltb_lt; exact E2]]|].
      apply andb_prop in E2 as [E2 E3]. right. split; [exact k|]. exists xs, n, es. auto. }
    assert (N : HON \/ (ANY /\ strict_s s = true /\ snarrow s) -> tri (Inv (os_env o) G) C (flat_stmt s;;; flat_stmts_z r)
      (fun _ st' lg => post o (match sem_stmt o s with Some o' => sem_stmts o' r | None => None end) (fold_left tpost r (tpost G s)) st' lg)).
    { intros Hn. eapply tri_bind; [apply (Hs G o C Hn W1 S1 Ho); intros h hc X; apply (HC h hc); rewrite X; auto|].
      intros tt0 lg st0 a st1 em [o' [E1 [Hi [Ho' Hlg]]]] E. rewrite E1 in *.
      destruct (IH _ o' C HKr W2 (S2 o' (or_introl E1)) Ho' HC st0 a st1 em Hi E) as [H1 H2]. split; auto.
      intros Hg Hh. destruct (H1 Hg Hh) as [o2 [E2 [Hi2 [Ho2 Hlg2]]]]. exists o2. split; [auto|]. split; [auto|]. split; [auto|].
      rewrite Hlg2, Hlg, app_assoc. auto. }
    destruct D as [h|[D|[k [xs [n [es [-> [U Q]]]]]]]]; [exact (N (or_introl h))|exact (N (or_intror D))|]. clear N Hs.
    eapply tri_bind; [apply (wide_unpack xs n es G o C W1 S1); intros h hc X; apply (HC h hc); rewrite X; auto|].
    intros tt0 lg st0 a st1 em [-> [bs [o' [Lb [Lx [Eo [Hu [Hcan [Hhon Hi]]]]]]]]] E.
    assert (Ho' : outs_ok o') by (subst o'; exact Ho).
    destruct (IH _ o' C HKr W2 (S2 o' (or_intror (conj k Hu))) Ho') with (s := st0) (a := a) (s' := st1) (em := em) as [H1 H2]; [|exact Hi|exact E|].
    { intros h hc. specialize (HC h hc). rewrite (Hcan (Hhon h)) in HC. exact HC. }
    split; [|exact H2]. intros Hg Hh. destruct (H1 Hg Hh) as [o2 [E2 [Hi2 [Ho2 Hlg2]]]].
    assert (Hc : bs = bits_be n (fval (of_Z (bv bs)))). { subst n. apply (strict_unpack o xs bs r o' o2 U Lx Eo Q E2). }
    rewrite (Hcan Hc). exists o2. split; [exact E2|]. split; [exact Hi2|]. split; [exact Ho2|]. rewrite Hlg2, Eo. reflexivity.
Qed.
Lemma stmt_If : forall c a b, Forall stmt_ok a -> Forall stmt_ok b -> stmt_ok (ZIf c a b).
Proof.
  intros c ss1 ss2 HF1 HF2 G o C HK HW HS Ho HC.
  assert (HK1 : HON \/ (ANY /\ stricts ss1 = true)) by (destruct HK as [h|[k [h _]]]; [left; exact h|right; split; [exact k|]]; rewrite strict_if in h; apply andb_prop in h as [h _]; exact h).
  assert (HK2 : HON \/ (ANY /\ stricts ss2 = true)) by (destruct HK as [h|[k [h _]]]; [left; exact h|right; split; [exact k|]]; rewrite strict_if in h; apply andb_prop in h as [_ h]; exact h).
  rewrite flat_if, sem_if in *. apply wts_if in HW as [Wc [Kc [W1 W2]]]. apply safe_if in HS as [Dc [S1 S2]].
  cbn [tpost].
  eapply tri_ok_bind; [apply (flat_ok ext w HON (os_env o) G Hreq c C Wc Dc); intros h hc X; apply (HC h hc); rewrite X; auto|apply emq_flat|].
  intros u [v [Sc Hu]]. apply (ures_KB _ _ _ _ Kc) in Hu as [b [-> Hb]]. rewrite Sc in *.
  eapply tri_ok_bind; [apply ok_newdef|apply emq_newdef|]. intros cv _.
  eapply tri_bind; [apply (stmts_ok ss1 HF1 G o C HK1 W1 S1 Ho); intros h hc X; apply (HC h hc); rewrite X; auto|].
  intros tt0 lg st0 a st1 em [o' [E1 [Hi [Ho' Hlg]]]] E. rewrite E1 in *.
  destruct (stmts_ok ss2 HF2 _ o' C HK2 W2 (S2 o' eq_refl) Ho' HC st0 a st1 em Hi E) as [H1 H2]. split; auto.
  intros Hg Hh. destruct (H1 Hg Hh) as [o2 [E2 [Hi2 [Ho2 Hlg2]]]]. exists o2. split; [auto|]. split; [auto|]. split; [auto|].
  rewrite Hlg2, Hlg, app_assoc. auto.
Qed.
Theorem flat_stmt_ok : forall s, stmt_ok s.
Proof.
  apply zstmt_ind'.
  - apply stmt_Return.
  - apply stmt_Def.
  - intros c a b. apply stmt_If.
  - apply stmt_Assert.
  - apply stmt_Embed.
  - apply stmt_Log.
Qed.
Corollary flat_stmts_ok : forall ss G o (C : Prop), HON \/ (ANY /\ stricts ss = true) -> wtss G ss -> safe_stmts o ss -> outs_ok o ->
  (HON -> C -> sem_stmts o ss <> None) ->
  tri (Inv (os_env o) G) C (flat_stmts_z ss) (fun _ st' lg => post o (sem_stmts o ss) (fold_left tpost ss G) st' lg).
Proof. intros ss. apply stmts_ok. apply Forall_forall. intros s _. apply flat_stmt_ok. Qed.

(** ** Parameters *)
Definition pkind (t : ptype) : kind := match t with PF_ => KF | PB_ => KB | PU_ n => KU (mkAnn n (of_Z (pow2 n - 1)) SRFalse) end.
Definition param_ok (p : zparam) : Prop := match zptype p with PU_ n => (1 <= n)%nat /\ (2 * n + 3 <= required_bits)%nat | _ => True end.
Definition ptenv (G : tenv) (ps : list zparam) : tenv := fold_left (fun G p => tupd G (zpid p) (pkind (zptype p))) ps G.
Lemma Inv_rekind : forall rho G s x y k, Inv (upd_s rho x (VF y)) (tupd G x KF) s -> forall v, vrel k v y ->
  Inv (upd_s rho x v) (tupd G x k) s.
Proof.
  intros rho G s x y k [Hc Hl] v Hv. split; [exact Hc|]. intros z k' Hz. unfold tupd in Hz. unfold upd_s. destruct (Z.eqb_spec z x) as [->|Hn].
  - injection Hz as <-. destruct (Hl x KF) as [u [y' [H1 [H2 H3]]]]; [unfold tupd; rewrite Z.eqb_refl; auto|].
    unfold upd_s in H2. rewrite Z.eqb_refl in H2. injection H2 as <-. cbn in H3. exists u, v. rewrite H3. auto.
  - destruct (Hl z k') as [u [y' [H1 [H2 H3]]]]; [unfold tupd; destruct (Z.eqb_spec z x); [contradiction|auto]|].
    unfold upd_s in H2. destruct (Z.eqb_spec z x); [contradiction|]. eauto.
Qed.
Lemma use_param_ok : forall rho G p s prm s' em, Inv rho G s -> param_ok p -> use_param p s = Some (prm, s', em) ->
  (Forall (gsat w) em -> (HON -> Forall (hon solve w) em) ->
     exists y, val_of_input (zptype p) (w (pid prm)) = Some y /\ Inv (upd_s rho (zpid p) y) (tupd G (zpid p) (pkind (zptype p))) s') /\
  (HON -> val_of_input (zptype p) (w (pid prm)) <> None -> Forall (hon solve w) em -> Forall (fsat w) em).
Proof.
  intros rho G p s prm s' em Hi Hp E. set (v := vnew (nxt s)).
  set (s1 := mkSt (S (nxt s)) ((zpid p, v) :: lay s) (cache s)).
  assert (Hi1 : Inv (upd_s rho (zpid p) (VF (w v))) (tupd G (zpid p) KF) s1).
  { destruct Hi as [Hc Hl]. split; [exact Hc|]. intros z k' Hz. cbn [lay lookup s1]. unfold tupd in Hz. unfold upd_s. destruct (Z.eqb_spec z (zpid p)) as [->|Hn].
    - injection Hz as <-. exists v, (VF (w v)). cbn. auto.
    - apply Hl; auto. }
  assert (Hm : exists s2 o, (match zptype p with
       | PF_ => ret tt
       | PB_ => emit (XCond (XId v) (XMul (XId v) (XId v)) eArgumentBitness)
       | PU_ w => _ <- get_bits (UF (XId v) None) w w eSum ;; ret tt
       end) s1 = Some (tt, s2, o) /\ s' = s2 /\ em = o /\ prm = mkParam v (zpprivate p)).
  { unfold use_param, bind, fresh, set_lay in E. cbn [lay nxt cache] in E. fold v in E. fold s1 in E.
    match type of E with context [match zptype p with PF_ => ?a | PB_ => ?b | PU_ w => @?c w end s1] =>
      set (m0 := match zptype p with PF_ => a | PB_ => b | PU_ w => c w end s1) in *;
      change (exists s2 o, m0 = Some (tt, s2, o) /\ s' = s2 /\ em = o /\ prm = mkParam v (zpprivate p)) end.
    destruct m0 as [[[tt0 s2] o]|] eqn:Em; [|discriminate].
    cbn in E. injection E as <- <- <-. destruct tt0. exists s2, o. repeat split; auto; rewrite ?app_nil_r; auto. }
  destruct Hm as [s2 [o [Em [-> [-> ->]]]]]. clear E. cbn [pid].
  unfold param_ok in Hp. destruct (zptype p) as [| |n] eqn:Et; cbn [val_of_input pkind].
  - injection Em as <- <-. split; [|constructor]. intros _ _. eexists; split; [reflexivity|]. auto.
  - injection Em as <- <-. split.
    + intros Hs _. inversion Hs as [|? ? H1 _]; subst. assert (H2 : fmul (w v) (w v) = w v) by (first [exact H1 | symmetry; exact H1]). clear H1. rename H2 into H1.
      destruct (Feqb_spec (w v) f0) as [E0|N0]; [|destruct (Feqb_spec (w v) f1) as [E1|N1]].
      * eexists; split; [reflexivity|]. apply (Inv_rekind _ _ _ _ _ KB Hi1). cbn. auto.
      * eexists; split; [reflexivity|]. apply (Inv_rekind _ _ _ _ _ KB Hi1). cbn. auto.
      * exfalso. apply N1. assert (E2 : fmul (w v) (fsub (w v) f1) = f0) by (transitivity (fsub (fmul (w v) (w v)) (w v)); [ring|rewrite H1; ring]).
        apply fmul_integral in E2 as [E2|E2]; [contradiction|]. apply (proj1 (fsub_0 _ _)) in E2. auto.
    + intros h Hc Hh. repeat constructor. cbn [fsat feval]. destruct (Feqb_spec (w v) f0) as [->|_]; [ring|]. destruct (Feqb_spec (w v) f1) as [->|_]; [ring|congruence].
  - unfold bind, ret in Em. destruct (get_bits (UF (XId v) None) n n eSum s1) as [[[bits s3] o3]|] eqn:Eg; [|discriminate].
    injection Em as <- <-. rewrite app_nil_r. destruct Hp as [Hn1 Hn2].
    assert (Hok : ok (upd_s rho (zpid p) (VF (w v))) (tupd G (zpid p) KF) (val_of_input (PU_ n) (w v) <> None) (get_bits (UF (XId v) None) n n eSum)
       (fun bits => length bits = n /\ entry_ok w HON (XId v) bits (Nat.leb n n))).
    { apply ok_get_bits; auto. intros h hc. cbn [feval val_of_input] in *. rewrite Nat.max_id. unfold pow2.
      destruct (Z.ltb_spec (fval (w v)) (2 ^ Z.of_nat n)); [auto|congruence]. }
    destruct (Hok s1 bits s3 o3 Hi1 Eg) as [H1 H2]. split.
    + intros Hs Hh. destruct (H1 Hs Hh) as [Hi3 [Hl [bs [Hb [_ [_ [Hv _]]]]]]].
      pose proof (bv_range bs) as Hbr. pose proof (EB_length w _ _ Hb) as Hbl. rewrite <- Hbl, Hl in Hbr.
      pose proof (pow2_small_lt_pp n ltac:(lia)) as Hpp. destruct Hv as [_ Hv]; [lia|]. rewrite Nat.leb_refl in Hv. specialize (Hv eq_refl). cbn [feval] in Hv.
      rewrite Hl in Hv. assert (El : (fval (w v) <? 2 ^ Z.of_nat n) = true) by (apply Z.ltb_lt; auto). rewrite El. eexists; split; [reflexivity|].
      apply (Inv_rekind _ _ _ _ _ (KU (mkAnn n (of_Z (pow2 n - 1)) SRFalse)) Hi3). cbn [vrel]. pose proof (fval_range (w v)). pose proof (pow2_pos n).
      exists (fval (w v)). unfold ubound. cbn [ured umax uw]. rewrite fval_of_Z_small by lia. split; [lia|]. split; [lia|].
      split; [apply Z.mod_small; lia|]. symmetry. apply of_Z_fval.
    + intros h Hc Hh. apply H2; auto.
Qed.
Lemma params_ok : forall ps rho G s prms s' em, Inv rho G s -> Forall param_ok ps -> mapM use_param ps s = Some (prms, s', em) ->
  (Forall (gsat w) em -> (HON -> Forall (hon solve w) em) ->
     exists rho', bind_params rho ps (map (fun q => w (pid q)) prms) = Some rho' /\ Inv rho' (ptenv G ps) s') /\
  (HON -> bind_params rho ps (map (fun q => w (pid q)) prms) <> None -> Forall (hon solve w) em -> Forall (fsat w) em).
Proof.
  induction ps as [|p ps IH]; intros rho G s prms s' em Hi Hp E.
  - injection E as <- <- <-. split; [|constructor]. intros _ _. exists rho. split; auto.
  - inversion Hp as [|? ? Hp1 Hp2]; subst. cbn [mapM] in E. unfold bind, ret in E.
    destruct (use_param p s) as [[[q s1] o1]|] eqn:E1; [|discriminate]. destruct (mapM use_param ps s1) as [[[qs s2] o2]|] eqn:E2; [|discriminate].
    injection E as <- <- <-. rewrite app_nil_r. cbn [map bind_params ptenv fold_left].
    destruct (use_param_ok rho G p s q s1 o1 Hi Hp1 E1) as [H1 H2]. split.
    + intros Hs Hh. apply Forall_app in Hs as [Hs1 Hs2].
      assert (Hh1 : HON -> Forall (hon solve w) o1) by (intros h; specialize (Hh h); apply Forall_app in Hh; tauto).
      assert (Hh2 : HON -> Forall (hon solve w) o2) by (intros h; specialize (Hh h); apply Forall_app in Hh; tauto).
      destruct (H1 Hs1 Hh1) as [y [Ey Hi1]]. rewrite Ey. apply (IH _ _ s1 qs s2 o2 Hi1 Hp2 E2); auto.
    + intros h Hc Hh. apply Forall_app in Hh as [Hh1 Hh2].
      destruct (val_of_input (zptype p) (w (pid q))) as [y|] eqn:Ey; [|congruence].
      assert (Hf1 : Forall (fsat w) o1) by (apply H2; auto; discriminate).
      destruct (H1 (hon_gsat _ _ _ Hh1 Hf1) (fun _ => Hh1)) as [y' [Ey' Hi1]]. try rewrite Ey in Ey'. injection Ey' as <-.
      apply Forall_app. split; auto. apply (IH _ _ s1 qs s2 o2 Hi1 Hp2 E2); auto.
Qed.

(** ** Programs *)
Definition no_note (em : list fstmt) : Prop := Forall (fun s => match s with XNote _ => False | _ => True end) em.
Definition no_unsafe_note (em : list fstmt) : Prop := Forall (fun s => match s with XNote true => False | _ => True end) em.
Definition wtp (p : zprog) : Prop :=
  Forall param_ok (zargs p) /\ wtss (ptenv (fun _ => None) (zargs p)) (zbody p) /\
  exists ss es, zbody p = ss ++ [ZReturn es] /\ length es = zret p.
Definition safe_prog_k (p : zprog) (inputs : list F) : Prop :=
  forall rho, bind_params (fun _ => None) (zargs p) inputs = Some rho -> safe_stmts (mkOuts rho [] []) (zbody p).

Lemma sem_stmts_app : forall a b o, sem_stmts o (a ++ b) = match sem_stmts o a with Some o' => sem_stmts o' b | None => None end.
Proof. induction a as [|s r IH]; intros b o; cbn [app sem_stmts]; auto. destruct (sem_stmt o s); auto. Qed.
Lemma ret_len : forall p o o', wtp p -> sem_stmts o (zbody p) = Some o' -> length (os_ret o') = zret p.
Proof.
  intros p o o' [_ [_ [ss [es [Eb El]]]]] H. rewrite Eb, sem_stmts_app in H. destruct (sem_stmts o ss) as [o1|]; [|discriminate].
  cbn [sem_stmts sem_stmt] in H. destruct (sem_list (os_env o1) es) as [vs|] eqn:E; [|discriminate]. injection H as <-. cbn [os_ret].
  rewrite map_length, <- El. unfold sem_list in E. apply opt_list_map2 in E. symmetry. apply (f2_length E).
Qed.
Theorem codegen_ok : forall p prms em, wtp p -> codegen p = Some (prms, em) ->
  let inputs := map (fun q => w (pid q)) prms in HON \/ (ANY /\ stricts (zbody p) = true) -> safe_prog_k p inputs ->
  (Forall (gsat w) em -> (HON -> Forall (hon solve w) em) ->
     sem_prog p inputs = Some (map (fun i => w (vpub i)) (seq 0 (zret p)), flogs_of w em)) /\
  (HON -> sem_prog p inputs <> None -> Forall (hon solve w) em -> Forall (fsat w) em).
Proof.
  intros p prms em Hp E inputs HK Hsafe. pose proof Hp as [Hp1 [Hp2 _]]. unfold codegen, codegen_m in E.
  destruct ((ps <- mapM use_param (zargs p);; flat_stmts_z (zbody p);;; ret ps) init_st) as [[[x s] o]|] eqn:Er; [|discriminate].
  injection E as <- <-. unfold bind, ret in Er.
  destruct (mapM use_param (zargs p) init_st) as [[[qs s1] o1]|] eqn:E1; [|discriminate].
  destruct (flat_stmts_z (zbody p) s1) as [[[tt0 s2] o2]|] eqn:E2; [|discriminate]. injection Er as <- <- <-. rewrite app_nil_r.
  assert (Hi0 : Inv (fun _ => None) (fun _ => None) init_st) by (split; [constructor|intros z k Hz; discriminate]).
  destruct (params_ok _ _ _ _ _ _ _ Hi0 Hp1 E1) as [H1 H2]. fold inputs in H1, H2. unfold sem_prog.
  assert (Hq : flogs_of w o1 = []) by (apply flogs_quiet; apply (emq_mapM' _ _ use_param (zargs p) emq_use_param _ _ _ _ E1)).
  assert (Hbody : forall rho, bind_params (fun _ => None) (zargs p) inputs = Some rho -> Inv rho (ptenv (fun _ => None) (zargs p)) s1 ->
    (Forall (gsat w) o2 -> (HON -> Forall (hon solve w) o2) -> post (mkOuts rho [] []) (sem_stmts (mkOuts rho [] []) (zbody p)) (fold_left tpost (zbody p) (ptenv (fun _ => None) (zargs p))) s2 (flogs_of w o2)) /\
    (HON -> sem_stmts (mkOuts rho [] []) (zbody p) <> None -> Forall (hon solve w) o2 -> Forall (fsat w) o2)).
  { intros rho Hr Hi. apply (flat_stmts_ok (zbody p) _ (mkOuts rho [] []) (sem_stmts (mkOuts rho [] []) (zbody p) <> None) HK Hp2 (Hsafe rho Hr) eq_refl (fun _ x => x) s1 tt0 s2 o2 Hi E2). }
  split.
  - intros Hs Hh. apply Forall_app in Hs as [Hs1 Hs2].
    assert (Hh1 : HON -> Forall (hon solve w) o1) by (intros h; specialize (Hh h); apply Forall_app in Hh; tauto).
    assert (Hh2 : HON -> Forall (hon solve w) o2) by (intros h; specialize (Hh h); apply Forall_app in Hh; tauto).
    destruct (H1 Hs1 Hh1) as [rho [Er Hi]]. rewrite Er. destruct (Hbody rho Er Hi) as [H3 _]. destruct (H3 Hs2 Hh2) as [o' [Eo [_ [Ho Hl]]]].
    rewrite Eo. rewrite flogs_app, Hq. cbn [app] in *. cbn [os_log app] in Hl. unfold outs_ok in Ho. rewrite (ret_len _ _ _ Hp Eo) in Ho. rewrite Hl, Ho. auto.
  - intros h Hc Hh. apply Forall_app in Hh as [Hh1 Hh2].
    destruct (bind_params (fun _ => None) (zargs p) inputs) as [rho|] eqn:Er; [|congruence].
    assert (Hf1 : Forall (fsat w) o1) by (apply H2; auto; discriminate).
    destruct (H1 (hon_gsat _ _ _ Hh1 Hf1) (fun _ => Hh1)) as [rho' [Er' Hi]]. try rewrite Er in Er'. injection Er' as <-.
    apply Forall_app. split; auto. destruct (Hbody rho eq_refl Hi) as [_ H4]. apply H4; auto. intros X. rewrite X in Hc. congruence.
Qed.
End Stmts.

(** [safe_prog]: no division by zero, whichever bits the unpackings give; [unpacks_checked]: unpackings to as many bits as the field has are checked. *)
Definition safe_prog {PF : PrimeField} : zprog -> list F -> Prop := safe_prog_k True.
Definition unpacks_checked {PF : PrimeField} (p : zprog) : Prop := stricts (zbody p) = true.
