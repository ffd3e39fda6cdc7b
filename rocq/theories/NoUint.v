(** Programs without unsigned integers once constants are propagated: the two side conditions of C47, C51 and C52 ([max_ok_prog], on the
    recorded maxima of unsigned integers, and the condition on the code generator's cache of bit decompositions) always hold of them. *)
From Coq Require Import ZArith NArith List Bool Lia.
From Verif Require Import PField IR Interp Bits Flat Zir Codegen CgBase CgExpr CgProg CgWf CgEnd UintOpt Panic DeadCode Source.
Import ListNotations.
Open Scope Z_scope.

Section NoUint.
Context {PF : PrimeField}.

Definition kf (e : zexp) : bool := match zkind e with KF => true | _ => false end.
(** expressions over fields and booleans; no comparison of two literals and no zeroth power (propagation computes both) *)
Fixpoint fx (e : zexp) : bool :=
  match e with
  | ZFVal _ | ZBVal _ | ZId KF _ | ZId KB _ => true
  | ZFBin _ l r | ZBBin _ l r => fx l && fx r
  | ZPow e n => fx e && negb (N.eqb n 0)
  | ZCmp op l r => match op with CFLt | CFLe => negb (is_val l && is_val r) && (kf l && kf r) | CFEq => true | _ => false end && (fx l && fx r)
  | ZBNot e => fx e
  | ZCond KF c x y | ZCond KB c x y => fx c && (fx x && fx y)
  | _ => false
  end.
(** [wd]: whether unpacking to as many bits as the field has is accepted *)
Variable wd : bool.
Definition fem (em : embed) : bool := match em with EFieldToBool | EBitLe _ => true | EUnpack n => wd || Nat.ltb n required_bits | _ => false end.
Fixpoint fs (s : zstmt) : bool :=
  match s with
  | ZReturn es | ZLog _ es => forallb fx es
  | ZDef _ e | ZAssert e _ => fx e
  | ZEmbed _ em es => fem em && forallb fx es
  | ZIf c a b => fx c && ((fix go (l : list zstmt) : bool := match l with [] => true | s :: r => fs s && go r end) a &&
                 (fix go (l : list zstmt) : bool := match l with [] => true | s :: r => fs s && go r end) b)
  end.
Definition no_uint_k (p : zprog) : bool := forallb (fun q => match zptype q with PU_ _ => false | _ => true end) (zargs p) && forallb fs (zbody p).
Lemma fs_go : forall l, (fix go (l : list zstmt) : bool := match l with [] => true | s :: r => fs s && go r end) l = forallb fs l.
Proof. induction l as [|s l IH]; [reflexivity|]. cbn [forallb]. rewrite <- IH. reflexivity. Qed.
Lemma fs_if : forall c a b, fs (ZIf c a b) = fx c && (forallb fs a && forallb fs b).
Proof. intros c a b. change (fs (ZIf c a b)) with (fx c && ((fix go (l : list zstmt) : bool := match l with [] => true | s :: r => fs s && go r end) a && (fix go (l : list zstmt) : bool := match l with [] => true | s :: r => fs s && go r end) b)). rewrite !fs_go. reflexivity. Qed.
Ltac sp := repeat match goal with H : _ && _ = true |- _ => apply andb_prop in H as [? ?] end.

Ltac fr := repeat match goal with H : fx _ = true |- _ => rewrite H; clear H | H : is_val _ = _ |- _ => rewrite H; clear H end.

(** ** The analyses *)
Lemma pe_fs : forall e, fx e = true -> forallb fs (pe e) = true.
Proof.
  induction e using zexp_ind'; intros Hx; cbn [fx pe] in *; try reflexivity; try discriminate Hx; sp.
  - rewrite !forallb_app, IHe1, IHe2 by assumption. destruct op; cbn [forallb fs fx is_val andb]; try reflexivity. fr. reflexivity.
  - apply IHe; assumption.
  - rewrite !forallb_app, IHe1, IHe2 by assumption. destruct op; cbn [forallb fs fx is_val andb]; try reflexivity. destruct (is_val e1 || is_val e2); [reflexivity|]. cbn [forallb fs fx is_val andb negb kf zkind]. fr. reflexivity.
  - rewrite !forallb_app, IHe1, IHe2 by assumption. reflexivity.
  - apply IHe; assumption.
  - assert (A : fx e1 = true /\ fx e2 = true /\ fx e3 = true) by (destruct k; try discriminate Hx; sp; auto). destruct A as [A [B C]]. rewrite forallb_app, IHe1 by assumption. specialize (IHe2 B). specialize (IHe3 C).
    destruct (pe e2) as [|s2 l2] eqn:E2; [destruct (pe e3) as [|s3 l3] eqn:E3; [reflexivity|]|]; cbn [andb]; match goal with |- forallb fs [?s] = true => change (fs s && true = true) end; rewrite fs_if, A, IHe2, IHe3; reflexivity.
Qed.
Lemma pes_fs : forall es, forallb fx es = true -> forallb fs (pes es) = true.
Proof. induction es as [|e es IH]; intros H; [reflexivity|]. cbn [forallb] in H. sp. unfold pes in *. cbn [flat_map]. rewrite forallb_app, pe_fs, IH by assumption. reflexivity. Qed.
Lemma px_fs : forall s, fs s = true -> forallb fs (px s) = true.
Proof.
  fix IH 1. intros s H. assert (G : forall l, forallb fs l = true -> forallb fs (pxs l) = true).
  { induction l as [|a l IHl]; intros Q; [reflexivity|]. cbn [forallb] in Q. sp. unfold pxs. cbn [flat_map]. rewrite forallb_app, (IH a) by assumption. exact (IHl H1). }
  destruct s as [es|x e|c a b|e err|xs em es|f es]; cbn [px]; rewrite ?forallb_app; cbn [forallb].
  - rewrite H, pes_fs by exact H. reflexivity.
  - rewrite H, pe_fs by exact H. reflexivity.
  - rewrite !px_go, fs_if. rewrite fs_if in H. sp. rewrite pe_fs, H, !G by assumption. reflexivity.
  - rewrite H, pe_fs by exact H. reflexivity.
  - pose proof H as H'. cbn [fs] in H'. sp. rewrite H, pes_fs by assumption. reflexivity.
  - rewrite H, pes_fs by exact H. reflexivity.
Qed.

Lemma dces_fs : forall l U, forallb fs l = true -> forallb fs (snd (dces U l)) = true.
Proof.
  assert (D : forall s U, fs s = true -> forallb fs (snd (dce U s)) = true).
  { fix IH 1. intros s U H. assert (G : forall l U, forallb fs l = true -> forallb fs (snd (dces U l)) = true).
    { induction l as [|a l IHl]; intros V Q; [reflexivity|]. cbn [forallb] in Q. sp. cbn [dces]. specialize (IHl V). destruct (dces V l) as [U1 r']. specialize (IH a U1). destruct (dce U1 a) as [U2 s']. cbn [snd] in *. rewrite forallb_app, IH, IHl by assumption. reflexivity. }
    destruct s as [es|x e|c a b|e err|xs em es|f es]; try (cbn [dce snd forallb]; rewrite H; reflexivity).
    - cbn [dce]. destruct (inb x U); cbn [snd forallb]; [rewrite H|]; reflexivity.
    - rewrite dce_if. rewrite fs_if in H. sp. pose proof (G a (evars c ++ U) H0) as A. destruct (dces (evars c ++ U) a) as [U1 a']. pose proof (G b U1 H1) as B. destruct (dces U1 b) as [U2 b']. cbn [snd] in *. change (forallb fs [ZIf c a' b']) with (fs (ZIf c a' b') && true). rewrite fs_if, H, A, B. reflexivity.
    - cbn [dce]. destruct (existsb (fun x => inb x U) xs); cbn [snd forallb]; [rewrite H|]; reflexivity. }
  induction l as [|a l IHl]; intros V Q; [reflexivity|]. cbn [forallb] in Q. sp. cbn [dces]. specialize (IHl V). destruct (dces V l) as [U1 r']. pose proof (D a U1) as IH. destruct (dce U1 a) as [U2 s']. cbn [snd] in *. rewrite forallb_app, IH, IHl by assumption. reflexivity.
Qed.
Lemma fx_kind : forall e, fx e = true -> match zkind e with KU _ => False | _ => True end.
Proof. intros e H. destruct e; cbn [fx zkind] in *; try exact Logic.I; try discriminate H; destruct k; try exact Logic.I; discriminate H. Qed.
Lemma uo_id : forall e M e', fx e = true -> uo M e = Some e' -> e' = e.
Proof.
  induction e using zexp_ind'; intros M e' Hx E; cbn [fx uo] in *; try discriminate Hx.
  - congruence.
  - congruence.
  - destruct k; try discriminate Hx; congruence.
  - sp. destruct (uo M e1) as [a|] eqn:A; [|discriminate E]. destruct (uo M e2) as [b|] eqn:B; [|discriminate E]. cbn [obind] in E. rewrite (IHe1 M a), (IHe2 M b) in E by assumption. congruence.
  - sp. destruct (uo M e) as [a|] eqn:A; [|discriminate E]. cbn [obind] in E. rewrite (IHe M a) in E by assumption. congruence.
  - sp. destruct (uo M e1) as [a|] eqn:A; [|discriminate E]. destruct (uo M e2) as [b|] eqn:B; [|discriminate E]. cbn [obind] in E. rewrite (IHe1 M a), (IHe2 M b) in E by assumption. destruct op; try discriminate H; congruence.
  - sp. destruct (uo M e1) as [a|] eqn:A; [|discriminate E]. destruct (uo M e2) as [b|] eqn:B; [|discriminate E]. cbn [obind] in E. rewrite (IHe1 M a), (IHe2 M b) in E by assumption. congruence.
  - destruct (uo M e) as [a|] eqn:A; [|discriminate E]. cbn [obind] in E. rewrite (IHe M a) in E by assumption. congruence.
  - assert (A : fx e1 = true /\ fx e2 = true /\ fx e3 = true /\ match k with KU _ => False | _ => True end) by (destruct k; try discriminate Hx; sp; auto). destruct A as [A [B [C D]]]. destruct k as [| |a]; [| |destruct D].
    + destruct (uo M e1) as [a|] eqn:X1; [|discriminate E]. destruct (uo M e2) as [b|] eqn:X2; [|discriminate E]. destruct (uo M e3) as [c|] eqn:X3; [|discriminate E]. cbn [obind] in E. rewrite (IHe1 M a), (IHe2 M b), (IHe3 M c) in E by assumption. congruence.
    + destruct (uo M e1) as [a|] eqn:X1; [|discriminate E]. destruct (uo M e2) as [b|] eqn:X2; [|discriminate E]. destruct (uo M e3) as [c|] eqn:X3; [|discriminate E]. cbn [obind] in E. rewrite (IHe1 M a), (IHe2 M b), (IHe3 M c) in E by assumption. congruence.
Qed.
Lemma mapO_id : forall A (f : A -> option A) l l', (forall a b, In a l -> f a = Some b -> b = a) -> mapO f l = Some l' -> l' = l.
Proof.
  intros A f. induction l as [|a l IH]; intros l' H E; [injection E as <-; reflexivity|]. change (mapO f (a :: l)) with (obind (f a) (fun b => obind (mapO f l) (fun s => Some (b :: s)))) in E. destruct (f a) as [b|] eqn:F; [|discriminate E]. cbn [obind] in E. destruct (mapO f l) as [s|]; [|discriminate E]. cbn [obind] in E. injection E as <-.
  rewrite (H a b (or_introl eq_refl) F), (IH s); [reflexivity| |reflexivity]. intros x y I. exact (H x y (or_intror I)).
Qed.
Lemma uo_out_id : forall e M e', fx e = true -> uo_out M e = Some e' -> e' = e.
Proof. intros e M e' H E. unfold uo_out in E. destruct (uo M e) as [a|] eqn:A; [|discriminate E]. cbn [obind] in E. pose proof (uo_id e M a H A) as ->. pose proof (fx_kind e H) as K. destruct (zkind e); [congruence|congruence|destruct K]. Qed.
Lemma uo_stmt_id : forall s M M' s', fs s = true -> uo_stmt M s = Some (M', s') -> s' = s.
Proof.
  fix IH 1. intros s M M' s' H E. assert (G : forall l M p, forallb fs l = true -> (fix go (M : menv) (l : list zstmt) : option (menv * list zstmt) :=
               match l with [] => Some (M, []) | s :: r => obind (uo_stmt M s) (fun p => obind (go (fst p) r) (fun q => Some (fst q, snd p :: snd q))) end) M l = Some p -> snd p = l).
  { induction l as [|a l IHl]; intros N p Q F; [injection F as <-; reflexivity|]. cbn [forallb] in Q. sp. destruct (uo_stmt N a) as [[N1 a']|] eqn:Ea; [|discriminate F]. cbn [obind fst snd] in F. destruct ((fix go (M : menv) (l : list zstmt) : option (menv * list zstmt) :=
               match l with [] => Some (M, []) | s :: r => obind (uo_stmt M s) (fun p => obind (go (fst p) r) (fun q => Some (fst q, snd p :: snd q))) end) N1 l) as [q|] eqn:Er; [|discriminate F]. cbn [obind] in F. injection F as <-. cbn [snd]. rewrite (IH a N N1 a' H0 Ea), (IHl N1 q H1 Er). reflexivity. }
  destruct s as [es|x e|c a b|e err|xs em es|f es]; try rewrite fs_if in H; cbn [fs uo_stmt] in *.
  - destruct (mapO (uo_out M) es) as [es'|] eqn:A; [|discriminate E]. cbn [obind] in E. injection E as <- <-. f_equal. apply (mapO_id _ _ _ _ (fun a b I => uo_out_id a M b (proj1 (forallb_forall fx es) H a I)) A).
  - unfold uo_def in E. destruct (uo M e) as [e1|] eqn:A; [|discriminate E]. cbn [obind] in E. pose proof (uo_id e M e1 H A) as ->. pose proof (fx_kind e H) as K. destruct (zkind e); [| |destruct K]; cbn [obind fst snd] in E; congruence.
  - sp. destruct (uo M c) as [c'|] eqn:A; [|discriminate E]. cbn [obind] in E. pose proof (uo_id c M c' H A) as ->.
    match type of E with obind ?x _ = _ => destruct x as [ra|] eqn:Ra; [|discriminate E] end. cbn [obind] in E. match type of E with obind ?x _ = _ => destruct x as [rb|] eqn:Rb; [|discriminate E] end. cbn [obind] in E. injection E as <- <-. rewrite (G a M ra H0 Ra), (G b (fst ra) rb H1 Rb). reflexivity.
  - destruct (uo M e) as [e1|] eqn:A; [|discriminate E]. cbn [obind] in E. rewrite (uo_id e M e1 H A) in E. congruence.
  - sp. destruct em; try discriminate H; cbn [obind] in E; (destruct (mapO (uo M) es) as [es'|] eqn:A; [|discriminate E]); cbn [obind] in E; injection E as <- <-; f_equal; apply (mapO_id _ _ _ _ (fun a b I => uo_id a M b (proj1 (forallb_forall fx es) H0 a I)) A).
  - destruct (mapO (uo_out M) es) as [es'|] eqn:A; [|discriminate E]. cbn [obind] in E. injection E as <- <-. f_equal. apply (mapO_id _ _ _ _ (fun a b I => uo_out_id a M b (proj1 (forallb_forall fx es) H a I)) A).
Qed.
Lemma uo_stmts_id : forall l M p, forallb fs l = true -> uo_stmts M l = Some p -> snd p = l.
Proof.
  induction l as [|a l IH]; intros M p H E; [injection E as <-; reflexivity|]. cbn [forallb] in H. sp. cbn [uo_stmts] in E. destruct (uo_stmt M a) as [[M1 a']|] eqn:A; [|discriminate E]. cbn [obind fst snd] in E. destruct (uo_stmts M1 l) as [q|] eqn:B; [|discriminate E]. cbn [obind] in E. injection E as <-. cbn [snd]. rewrite (uo_stmt_id a M M1 a' H A), (IH M1 q H0 B). reflexivity.
Qed.
Theorem analyse_no_word : forall p p', no_uint_k p = true -> analyse p = Some p' -> no_uint_k p' = true.
Proof.
  intros p p' H E. unfold analyse, uint_optimize in E. unfold no_uint_k in H. sp. destruct (uo_stmts _ (zbody (eliminate (extract_panics p)))) as [r|] eqn:A; [|discriminate E]. cbn [obind] in E. injection E as <-.
  assert (B : forallb fs (zbody (eliminate (extract_panics p))) = true). { cbn [eliminate extract_panics zbody]. apply dces_fs. clear - H0. induction (zbody p) as [|s l IH]; [reflexivity|]. cbn [forallb] in H0. sp. unfold pxs in *. cbn [flat_map]. rewrite forallb_app, px_fs, IH by assumption. reflexivity. }
  unfold no_uint_k. cbn [zargs zbody eliminate extract_panics]. rewrite H. cbn [andb]. rewrite (uo_stmts_id _ _ _ B A). exact B.
Qed.
(** ** The maxima *)
Lemma fx_max : forall e, fx e = true -> max_ok e.
Proof.
  induction e using zexp_ind'; intros Hx; cbn [fx max_ok] in *; try exact Logic.I; try discriminate Hx; sp; auto.
  destruct k; try discriminate Hx; sp; auto.
Qed.
Lemma fs_max : forall s, fs s = true -> max_ok_stmt s.
Proof.
  fix IH 1. intros s H. assert (G : forall l, forallb fs l = true -> (fix go (l : list zstmt) : Prop := match l with [] => True | s :: r => max_ok_stmt s /\ go r end) l).
  { induction l as [|a l IHl]; intros Q; [exact Logic.I|]. cbn [forallb] in Q. sp. split; [exact (IH a H0)|exact (IHl H1)]. }
  assert (L : forall es, forallb fx es = true -> Forall max_ok es) by (intros es Q; apply Forall_forall; intros e I; apply fx_max; exact (proj1 (forallb_forall fx es) Q e I)).
  destruct s as [es|x e|c a b|e err|xs em es|f es]; try rewrite fs_if in H; cbn [fs max_ok_stmt] in *; [exact (L es H)|exact (fx_max e H)| |exact (fx_max e H)| |exact (L es H)].
  - sp. split; [exact (fx_max c H)|]. split; [exact (G a H0)|exact (G b H1)].
  - sp. exact (L es H0).
Qed.
Theorem max_no_word : forall p, no_uint_k p = true -> max_ok_prog p.
Proof. intros p H. unfold no_uint_k in H. sp. apply Forall_forall. intros s I. apply fs_max. exact (proj1 (forallb_forall fs _) H0 s I). Qed.

(** ** The cache *)
(** apart from those of literals, the cached decompositions are exact *)
Definition exactc (s : st) : Prop := forall k bits ex, In (k, (bits, ex)) (cache s) -> ex = true \/ exists c, k = XVal c.
Definition K {A} (m : M A) (Q : A -> Prop) : Prop := forall s a s' em, exactc s -> m s = Some (a, s', em) -> exactc s' /\ no_note em /\ Q a.
Definition Kt {A} (m : M A) : Prop := K m (fun _ => True).
Lemma Kbind : forall A B (m : M A) (k : A -> M B) Q R, K m Q -> (forall a, Q a -> K (k a) R) -> K (bind m k) R.
Proof.
  intros A B m k Q R Hm Hk s b s' em Hs E. unfold bind in E. destruct (m s) as [[[a s1] o1]|] eqn:E1; [|discriminate E]. destruct (k a s1) as [[[b' s2] o2]|] eqn:E2; [|discriminate E]. injection E as <- <- <-. destruct (Hm s a s1 o1 Hs E1) as [A1 [A2 A3]]. destruct (Hk a A3 s1 b' s2 o2 A1 E2) as [B1 [B2 B3]].
  split; [exact B1|]. split; [apply Forall_app; split; assumption|exact B3].
Qed.
Lemma Kret : forall A (a : A) (Q : A -> Prop), Q a -> K (ret a) Q.
Proof. intros A a Q H s b s' em Hs E. injection E as <- <- <-. split; [exact Hs|]. split; [constructor|exact H]. Qed.
Lemma Kweak : forall A (m : M A) (Q R : A -> Prop), K m Q -> (forall a, Q a -> R a) -> K m R.
Proof. intros A m Q R H W s a s' em Hs E. destruct (H s a s' em Hs E) as [X [Y Z]]. auto. Qed.
Lemma Kfail : forall A (Q : A -> Prop), K fail Q.
Proof. intros A Q s a s' em Hs E. discriminate E. Qed.
Lemma Kemits : forall l, no_note l -> Kt (emits l).
Proof. intros l H s a s' em Hs E. injection E as <- <- <-. split; [exact Hs|]. split; [exact H|exact Logic.I]. Qed.
Lemma Kemit : forall x, match x with XNote _ => False | _ => True end -> Kt (emit x).
Proof. intros x H. apply Kemits. constructor; [exact H|constructor]. Qed.
Lemma Kassert : forall b, K (assertM b) (fun _ => b = true).
Proof. intros [|]; [apply Kret; reflexivity|apply Kfail]. Qed.
Lemma Kfresh : Kt fresh.
Proof. intros s a s' em Hs E. injection E as <- <- <-. split; [exact Hs|]. split; [constructor|exact Logic.I]. Qed.
Lemma Kset : forall x v, Kt (set_lay x v).
Proof. intros x v s a s' em Hs E. injection E as <- <- <-. split; [exact Hs|]. split; [constructor|exact Logic.I]. Qed.
Lemma Kget : forall x, Kt (get_lay x).
Proof. intros x s a s' em Hs E. unfold get_lay in E. destruct (lookup x (lay s)); [|discriminate E]. injection E as <- <- <-. split; [exact Hs|]. split; [constructor|exact Logic.I]. Qed.
Lemma Kcput : forall k bits ex, ex = true \/ (exists c, k = XVal c) -> Kt (cput k bits ex).
Proof. intros k bits ex H s a s' em Hs E. injection E as <- <- <-. split; [|split; [constructor|exact Logic.I]]. intros k' b' e' [I|I]; [injection I as <- <- <-; exact H|exact (Hs k' b' e' I)]. Qed.
Lemma Kcget : forall k, (forall c, k <> XVal c) -> K (cget k) (fun o => match o with Some (_, ex) => ex = true | None => True end).
Proof.
  intros k Nk s a s' em Hs E. injection E as <- <- <-. split; [exact Hs|]. split; [constructor|]. unfold exactc in Hs. induction (cache s) as [|[k' [b e]] r IH]; cbn [clookup]; [exact Logic.I|].
  destruct (fexp_eqb k k') eqn:Q; [|apply IH; intros x y z I; exact (Hs x y z (or_intror I))]. destruct (Hs k' b e (or_introl eq_refl)) as [X|[c ->]]; [exact X|]. exfalso. destruct k; try discriminate Q. exact (Nk _ eq_refl).
Qed.
Lemma KmapM : forall A B (f : A -> M B) l, (forall x, In x l -> Kt (f x)) -> Kt (mapM f l).
Proof.
  intros A B f. induction l as [|x l IH]; intros H; [apply Kret; exact Logic.I|]. cbn [mapM]. eapply Kbind; [exact (H x (or_introl eq_refl))|]. intros y _. eapply Kbind; [apply IH; intros z I; exact (H z (or_intror I))|]. intros ys _. apply Kret. exact Logic.I.
Qed.
Lemma KzipM : forall A B C (f : A -> B -> M C) l r, (forall x y, Kt (f x y)) -> Kt (zipM f l r).
Proof.
  intros A B C f. induction l as [|x l IH]; intros r H; [apply Kret; exact Logic.I|]. destruct r as [|y r]; [apply Kret; exact Logic.I|]. cbn [zipM]. eapply Kbind; [exact (H x y)|]. intros z _. eapply Kbind; [exact (IH r H)|]. intros zs _. apply Kret. exact Logic.I.
Qed.
Lemma nn_map : forall A (f : A -> fstmt) l, (forall a, match f a with XNote _ => False | _ => True end) -> no_note (map f l).
Proof. intros A f l H. apply Forall_forall. intros s I. apply in_map_iff in I as [a [<- _]]. apply H. Qed.
Ltac k0 := first [ apply Kret; exact Logic.I | apply Kfail | apply Kfresh | apply Kset | apply Kget | apply Kemit; exact Logic.I | apply Kassert
                 | apply Kemits; first [apply nn_map; intros; exact Logic.I | repeat constructor] ].
Ltac kb := eapply Kbind; [|intros ? ?].
Ltac kk := repeat first [kb | k0 | assumption].
Lemma Kfreshn : forall n, Kt (freshn n).
Proof. induction n as [|n IH]; cbn [freshn]; [k0|]. kb; [k0|]. eapply Kbind; [exact IH|intros ? _]. k0. Qed.
Lemma Kdefine : forall e, Kt (define e).
Proof. intros e. destruct e; cbn [define]; kk. Qed.
Lemma Knewdef : forall e, Kt (newdef e).
Proof. intros e. unfold newdef. kk. Qed.
(** the result is not a literal unless the argument is *)
Lemma Klin : forall e, Kt (linearise e).
Proof. intros e. unfold linearise. destruct (is_linear e); [k0|]. eapply Kbind; [apply Knewdef|]. intros v _. k0. Qed.
Lemma Kbits : forall e n err, (forall c, e = XVal c -> fval c < pow2 n) -> Kt (get_bits (UF e None) n n err).
Proof.
  intros e n err H. unfold get_bits. kb; [k0|]. kb; [k0|]. assert (G : forall k, (forall c, k <> XVal c) -> Kt (hit <- cget k ;;
      match hit with
      | Some (bits, exact) =>
          let drop := firstn (length bits - n) bits in
          let res := skipn (length bits - n) bits in
          emits (if negb exact && (Nat.leb n n || Nat.ltb (length bits) n) then [XNote true] else []) ;;;
          emits (if Nat.ltb n n && Nat.ltb n (length bits) then [XNote false] else []) ;;;
          emit (XCond (XVal f0) (fsum drop) err) ;;;
          ret (repeat (XVal f0) (n - length res) ++ res)
      | None =>
          let from' := Nat.max n n in
          vs <- freshn from' ;;
          emit (XDir vs (SBits from') [k]) ;;;
          let bits := map XId vs in
          emits (map bitness bits) ;;;
          emit (XCond k (ffb bits) err) ;;;
          let res := skipn (from' - n) bits in
          cput k res (Nat.eqb from' n) ;;;
          cput (ffb bits) res (Nat.eqb from' n) ;;;
          ret res
      end)).
  { intros k Nk. eapply Kbind; [exact (Kcget k Nk)|]. intros [[bits ex]|] Q.
    - cbv zeta. rewrite Q, Nat.ltb_irrefl. cbn [negb andb]. kk.
    - cbv zeta. rewrite Nat.max_id, Nat.eqb_refl. eapply Kbind; [apply Kfreshn|]. intros vs _. kb; [k0|]. kb; [apply Kemits; apply nn_map; intros; exact Logic.I|]. kb; [k0|]. kb; [apply Kcput; left; reflexivity|]. kb; [apply Kcput; left; reflexivity|]. k0. }
  destruct e; try (apply G; intros; discriminate). kb; [apply Kcput; right; eexists; reflexivity|]. pose proof (H _ eq_refl) as L. rewrite Nat.leb_refl. replace (pow2 n <=? fval c) with false by (symmetry; apply Z.leb_gt; exact L). kb; [k0|]. k0.
Qed.
Ltac kw H := eapply Kbind; [exact H|intros ? _].
Lemma Kclc : forall b a prs, Kt (clc_loop a b prs).
Proof.
  induction b as [|t b IH]; intros a prs; [destruct a; k0|]. destruct a as [|ai a]; [k0|]. destruct t; (destruct prs as [|[run su] prs]; [k0|]); cbn [clc_loop].
  - kb; [k0|]. kb; [apply Kemits; destruct prs as [|[? ?] ?]; repeat constructor|]. apply IH.
  - kb; [apply Kemits; destruct prs as [|[? ?] ?]; repeat constructor|]. kb; [k0|]. kb; [k0|]. kw (IH a prs). k0.
Qed.
Lemma Kle_check : forall a b, Kt (constant_le_check a b).
Proof.
  intros a b. unfold constant_le_check. kb; [k0|]. destruct (forallb (fun x => x) b).
  - kb; [apply KmapM; intros; apply Kdefine|]. kb; [apply Kemits; apply nn_map; intros; exact Logic.I|]. k0.
  - kb; [apply KmapM; intros; kk|]. kb; [apply Kemits; match goal with |- no_note (match ?l with _ => _ end) => destruct l as [|[? ?] ?] end; repeat constructor|]. apply Kclc.
Qed.
Lemma Keq : forall l r, K (eq_check l r) (fun x => forall c, x <> XVal c).
Proof.
  intros l r. unfold eq_check. kw (Kdefine l). kw (Kdefine r). kb; [k0|]. kb; [k0|]. kb; [k0|]. kb; [k0|]. kb; [k0|]. apply Kret. intros c E. discriminate E.
Qed.
Lemma Keqt : forall l r, Kt (eq_check l r).
Proof. intros l r. eapply Kweak; [apply Keq|]. intros. exact Logic.I. Qed.
Lemma Kleb : forall a c err, Kt (enforce_le_bits a c err).
Proof. intros. unfold enforce_le_bits. kw (Kle_check a c). k0. Qed.
Lemma Kecle : forall e c err, (forall k, e <> XVal k) -> Kt (enforce_constant_le e c err).
Proof. intros e c err H. unfold enforce_constant_le. eapply Kbind; [apply Kbits; intros k Q; destruct (H k Q)|intros bits _]. apply Kleb. Qed.
Lemma Keclt : forall e c err, (forall k, e <> XVal k) -> Kt (enforce_constant_lt e c err).
Proof. intros e c err H. unfold enforce_constant_lt. destruct (Feqb c f0); [k0|apply Kecle; exact H]. Qed.
Lemma fval_small : forall k : F, 0 <= fval k < pow2 required_bits.
Proof. intros k. pose proof (fval_range k). pose proof required_bits_bounds. lia. Qed.
Lemma Kcfle : forall e c, Kt (constant_field_le e c).
Proof. intros e c. unfold constant_field_le. eapply Kbind; [apply Kbits; intros k _; exact (proj2 (fval_small k))|intros bits _]. kw (Kleb bits (to_bits_be fmax) eLe). kw (Kle_check bits (to_bits_be c)). apply Keqt. Qed.
Lemma Kclt : forall e c, Kt (constant_lt e c).
Proof. intros e c. unfold constant_lt. destruct (Feqb c f0); [k0|apply Kcfle]. Qed.
Lemma Klt : forall l r w, Kt (lt_check l r w).
Proof.
  intros l r w. assert (D : Kt (bind (define l) (fun li => bind (define r) (fun ri => bind (get_bits (UF (XAdd (XVal (of_Z (pow2 w))) (XSub (XId li) (XId ri))) None) (S w) (S w) eSum) (fun bits => match bits with b0 :: _ => ret (XSub one b0) | [] => fail end))))).
  { kw (Kdefine l). kw (Kdefine r). eapply Kbind; [apply Kbits; intros k Q; discriminate Q|intros bits _]. destruct bits; k0. }
  unfold lt_check. destruct l, r; first [apply Kclt | exact D].
Qed.
Lemma Kle : forall l r w, Kt (le_check l r w).
Proof. intros l r w. unfold le_check. kw (Keqt l r). kw (Klt l r w). k0. Qed.
Lemma Kflt : forall l r, Kt (field_lt l r).
Proof.
  intros l r. unfold field_lt. destruct l, r; first [apply Kclt | (eapply Kbind; [apply Keclt; intros k Q; discriminate Q|intros ? _]; eapply Kbind; [apply Keclt; intros k Q; discriminate Q|intros ? _]; apply Klt)].
Qed.
Lemma Kor : forall x y, Kt (or_flat x y).
Proof. intros. unfold or_flat. kk. Qed.
(** powers *)
Lemma Ksq : forall r e, K (pow_squares e r) (fun l => length l = length r).
Proof.
  induction r as [|b r IH]; intros e; [apply Kret; reflexivity|]. cbn [pow_squares]. kw (Knewdef (XMul e e)). eapply Kbind; [exact (IH _)|]. intros vs L. apply Kret. cbn [length]. rewrite L. reflexivity.
Qed.
Lemma Kpw : forall e bits, K (pow_powers e bits) (fun l => length l = length bits).
Proof. intros e [|b r]; [apply Kret; reflexivity|]. unfold pow_powers. eapply Kbind; [apply Ksq|]. intros vs L. apply Kret. cbn [length]. rewrite L. reflexivity. Qed.
Lemma Kpf1 : forall bits acc ps, (forall c, acc <> XVal c) -> K (pow_fold acc bits ps) (fun x => forall c, x <> XVal c).
Proof.
  induction bits as [|b bits IH]; intros acc ps H; [apply Kret; exact H|]. destruct ps as [|q ps]; [destruct b; apply Kret; exact H|]. destruct b; cbn [pow_fold]; [|apply IH; exact H]. kw (Knewdef (XMul acc q)). apply IH. intros c Q. discriminate Q.
Qed.
Lemma Kpf : forall bits acc ps, length ps = length bits -> existsb (fun b => b) bits = true -> K (pow_fold acc bits ps) (fun x => forall c, x <> XVal c).
Proof.
  induction bits as [|b bits IH]; intros acc ps L H; [discriminate H|]. destruct ps as [|q ps]; [discriminate L|]. destruct b; cbn [pow_fold]; [|apply IH; [injection L as L; exact L|exact H]]. kw (Knewdef (XMul acc q)). apply Kpf1. intros c Q. discriminate Q.
Qed.
Lemma exp_bits_some : forall n, N.eqb n 0 = false -> existsb (fun b => b) (exp_bits n) = true.
Proof. intros [|q] H; [discriminate H|]. clear H. cbn [exp_bits]. induction q; cbn [pos_bits existsb orb]; [reflexivity|exact IHq|reflexivity]. Qed.

Definition Qe (e : zexp) (u : fu) : Prop := exists x, u = UF x None /\ (kf e = true -> is_val e = false -> forall c, x <> XVal c).
Lemma KQ : forall e x, (kf e = true -> is_val e = false -> forall c, x <> XVal c) -> K (ret (UF x None)) (Qe e).
Proof. intros e x H. apply Kret. exists x. split; [reflexivity|exact H]. Qed.
Ltac nv := let Q := fresh "Q" in first [intros _ Q; discriminate Q | intros Q; discriminate Q | intros _ _ ? Q; discriminate Q].
Ltac fl H := eapply Kbind; [apply H; assumption|]; let x := fresh "x" in let u := fresh "u" in let V := fresh "V" in intros u [x [-> V]]; cbn [getf].
Theorem Kflat : forall e, fx e = true -> K (flat e) (Qe e).
Proof.
  induction e using zexp_ind'; intros Hx; cbn [fx] in Hx; try discriminate Hx; cbn [flat].
  - apply KQ. nv.
  - apply KQ. nv.
  - destruct k; try discriminate Hx; (kb; [k0|]; apply KQ; nv).
  - sp. fl IHe1. fl IHe2. destruct op.
    + kw (Klin x). kw (Klin x0). apply KQ. nv.
    + kw (Klin x). kw (Klin x0). apply KQ. nv.
    + kw (Klin x). kw (Klin x0). apply KQ. nv.
    + kw (Knewdef x). kw (Knewdef x0). kb; [k0|]. kb; [k0|]. kb; [k0|]. apply KQ. nv.
  - sp. fl IHe. kb; [k0|]. eapply Kbind; [apply Kpw|]. intros ps L. eapply Kbind; [apply (Kpf _ _ _ L)|].
    + apply exp_bits_some. destruct (N.eqb n 0); [discriminate H0|reflexivity].
    + intros y Ny. apply KQ. intros _ _. exact Ny.
  - sp. destruct op; try discriminate H.
    + fl IHe1. fl IHe2. kw (Kflt x x0). apply KQ. nv.
    + fl IHe1. fl IHe2. kw (Kflt x x0). fl IHe1. fl IHe2. kw (Keqt x1 x2). apply KQ. nv.
    + fl IHe1. fl IHe2. kw (Keqt x x0). apply KQ. nv.
  - sp. fl IHe1. fl IHe2. destruct op.
    + kw (Knewdef (XMul (XSub x x0) (XSub x x0))). apply KQ. nv.
    + kb; [k0|]. kw (Kor x x0). apply KQ. nv.
    + kb; [k0|]. kw (Knewdef (XMul x x0)). apply KQ. nv.
  - fl IHe. apply KQ. nv.
  - assert (A : fx e1 = true /\ fx e2 = true /\ fx e3 = true /\ match k with KU _ => False | _ => True end) by (destruct k; try discriminate Hx; sp; auto). destruct A as [A [B [C D]]].
    assert (G : K (bind (flat e1) (fun cf => bind (newdef (getf cf)) (fun cid => bind (flat e2) (fun xf => bind (flat e3) (fun yf => cond_flat cid (getf xf) (getf yf)))))) (fun u => exists v, u = UF (XId v) None)).
    { fl IHe1. kw (Knewdef x). fl IHe2. fl IHe3. unfold cond_flat. kw (Knewdef x0). kw (Knewdef x1). eapply Kbind; [apply Knewdef|intros ? _]. eapply Kbind; [apply Knewdef|intros ? _]. eapply Kbind; [apply Knewdef|intros ? _]. apply Kret. eexists. reflexivity. }
    destruct k as [| |a]; [| |destruct D]; cbn [isU]; (eapply Kweak; [exact G|]; intros u [v ->]; exists (XId v); split; [reflexivity|nv]).
Qed.
Lemma Kft : forall e, fx e = true -> Kt (flat e).
Proof. intros e H. eapply Kweak; [apply Kflat; exact H|]. intros. exact Logic.I. Qed.

Lemma Knaive : forall e err, fx e = true -> Kt (naive_assert e err).
Proof. intros e err H. unfold naive_assert. kw (Kft e H). apply Kemit. match goal with |- context [is_linear ?x] => destruct (is_linear x) end; exact Logic.I. Qed.
Lemma Knz : forall x, Kt (not_zero_assert x).
Proof. intros x. unfold not_zero_assert. kw (Kdefine x). kk. Qed.
Lemma Keqa : forall l r err, Kt (eq_assert l r err).
Proof.
  intros l r err. assert (D : forall x y, Kt (bind (linearise x) (fun z' => bind (linearise y) (fun x' => emit (XCond z' (XMul x' one) err))))) by (intros x y; kw (Klin x); kw (Klin y); k0).
  assert (D3 : forall x y z, Kt (bind (linearise x) (fun z' => bind (linearise y) (fun x' => bind (linearise z) (fun b' => emit (XCond z' (XMul x' b') err)))))) by (intros x y z; kw (Klin x); kw (Klin y); kw (Klin z); k0).
  unfold eq_assert. destruct l, r; first [apply D3 | apply D].
Qed.
Lemma Kcmp : forall le l r err, ((forall c, l <> XVal c) \/ (forall c, r <> XVal c)) -> Kt (field_cmp_assert le l r err).
Proof.
  intros le l r err H. assert (En : forall e c, (forall k, e <> XVal k) -> Kt ((if le then enforce_constant_le else enforce_constant_lt) e c err)) by (intros e c N; destruct le; [apply Kecle|apply Keclt]; exact N).
  assert (Ck : forall a b w, Kt ((if le then le_check else lt_check) a b w)) by (intros; destruct le; [apply Kle|apply Klt]).
  unfold field_cmp_assert. destruct l, r;
    first [ exfalso; destruct H as [H|H]; exact (H _ eq_refl)
          | apply En; intros k Q; discriminate Q
          | (eapply Kbind; [apply Keclt; intros k Q; discriminate Q|intros ? _]; eapply Kbind; [apply Keclt; intros k Q; discriminate Q|intros ? _]; eapply Kbind; [apply Ck|intros ? _]; unfold enforce_one; k0) ].
Qed.
Lemma Kassrt : forall e err, fx e = true -> Kt (flat_assert e err).
Proof.
  induction e using zexp_ind'; intros err Hx; try (exact (Knaive _ err Hx)); try discriminate Hx.
  - (* comparison *)
    cbn [fx] in Hx. sp. destruct op; try discriminate H; cbn [flat_assert].
    + sp. fold fx in *. eapply Kbind; [apply Kflat; assumption|]. intros u [x [-> V]]. eapply Kbind; [apply Kflat; assumption|]. intros u [y [-> W]]. cbn [getf]. apply Kcmp.
      destruct (is_val e1) eqn:V1; [|left; apply V; [assumption|reflexivity]]. destruct (is_val e2) eqn:V2; [discriminate H|]. right. apply W; [assumption|reflexivity].
    + sp. eapply Kbind; [apply Kflat; assumption|]. intros u [x [-> V]]. eapply Kbind; [apply Kflat; assumption|]. intros u [y [-> W]]. cbn [getf]. apply Kcmp.
      destruct (is_val e1) eqn:V1; [|left; apply V; [assumption|reflexivity]]. destruct (is_val e2) eqn:V2; [discriminate H|]. right. apply W; [assumption|reflexivity].
    + eapply Kbind; [apply Kft; assumption|intros ? _]. eapply Kbind; [apply Kft; assumption|intros ? _]. apply Keqa.
  - (* boolean connectives *)
    destruct op; try (exact (Knaive _ err Hx)); cbn [fx] in Hx; sp; cbn [flat_assert].
    + eapply Kbind; [apply Kft; assumption|intros ? _]. eapply Kbind; [apply Kft; assumption|intros ? _]. apply Keqa.
    + eapply Kbind; [apply IHe2; assumption|intros ? _]. apply IHe1. assumption.
  - (* negation *)
    destruct e as [| | | | | |op l r| | | | | | | |]; try (exact (Knaive _ err Hx)). destruct op; try (exact (Knaive _ err Hx)).
    + cbn [flat_assert]. pose proof Hx as Hy. cbn [fx] in Hy. sp. destruct (is_zero_f l); [eapply Kbind; [apply Kft; assumption|intros ? _]; apply Knz|]. destruct (is_zero_f r); [eapply Kbind; [apply Kft; assumption|intros ? _]; apply Knz|]. exact (Knaive _ err Hx).
    + cbn [fx] in Hx. discriminate Hx.
Qed.

Lemma Kunpack : forall n x, Kt (unpack n x).
Proof.
  intros n x. unfold unpack. kw (Kdefine x). kw (Kfreshn n). kb; [k0|]. kb; [apply Kemits; apply nn_map; intros; exact Logic.I|]. kb; [k0|]. apply KmapM. intros v _. eapply Kbind; [apply Knewdef|intros ? _]. k0.
Qed.
Lemma Kbc : forall e, Kt (bool_const e).
Proof. intros e. unfold bool_const. destruct e; try k0. destruct (Feqb c f1); [k0|]. destruct (Feqb c f0); k0. Qed.
Lemma Kembed : forall em ps, fem em = true -> Kt (embed_call em ps).
Proof.
  intros em ps H. destruct em; try discriminate H; unfold embed_call.
  all: try (destruct ps as [|? [|? ?]]; k0).
  all: try (eapply Kbind; [apply KmapM; intros; apply Kdefine|intros ? _]; eapply Kbind; [apply KmapM; intros; apply Kbc|intros ? _]; eapply Kbind; [apply Kle_check|intros ? _]; eapply Kbind; [apply Keqt|intros ? _]; k0).
  all: destruct ps as [|q [|? ?]]; try k0; kw (Kunpack n (getf q)); k0.
Qed.
Lemma Kname : forall x e, Kt (bind_name x e).
Proof. intros x e. unfold bind_name. destruct e; kk. Qed.
Lemma Kstmt : forall s, fs s = true -> Kt (flat_stmt s).
Proof.
  fix IH 1. intros s H. assert (G : forall l, forallb fs l = true -> Kt ((fix go (l : list zstmt) : M unit := match l with [] => ret tt | s :: r => bind (flat_stmt s) (fun _ => go r) end) l)).
  { induction l as [|a l IHl]; intros Q; [k0|]. cbn [forallb] in Q. sp. eapply Kbind; [exact (IH a H0)|intros ? _]. exact (IHl H1). }
  assert (L : forall es, forallb fx es = true -> Kt (mapM flat es)) by (intros es Q; apply KmapM; intros e I; apply Kft; exact (proj1 (forallb_forall fx es) Q e I)).
  destruct s as [es|x e|c a b|e err|xs em es|f es]; try rewrite fs_if in H; cbn [fs flat_stmt] in *.
  - kw (L es H). apply Kemits. match goal with |- no_note (zip2 _ (seq ?k _) ?l) => generalize k; induction l as [|u us IHu]; intros k1; cbn [length seq zip2]; constructor; [exact Logic.I|apply IHu] end.
  - eapply Kbind; [apply Kflat; exact H|]. intros u [y [-> _]]. eapply Kbind; [apply Kname|intros v _]. cbn [getbits]. k0.
  - sp. kw (Kft c H). eapply Kbind; [apply Knewdef|intros ? _]. eapply Kbind; [exact (G a H0)|intros ? _]. exact (G b H1).
  - apply Kassrt. exact H.
  - sp. eapply Kbind; [apply KmapM; intros e I; kb; [k0|]; apply Kft; exact (proj1 (forallb_forall fx es) H0 e I)|intros ps _]. eapply Kbind; [apply Kembed; exact H|intros rs _]. kb; [k0|]. eapply Kbind; [apply KzipM; intros; apply Kname|intros vs _]. destruct em; try k0; discriminate H.
  - kw (L es H). k0.
Qed.
Theorem cache_no_word : forall p, no_uint_k p = true -> cache_clean p.
Proof.
  intros p H. unfold no_uint_k in H. sp. unfold cache_clean, codegen. destruct (codegen_m p init_st) as [[[ps s] em]|] eqn:E; [|exact Logic.I].
  assert (G : Kt (codegen_m p)).
  { unfold codegen_m. eapply Kbind.
    - apply KmapM. intros q I. pose proof (proj1 (forallb_forall _ _) H q I) as Hq. unfold use_param. kb; [k0|]. kb; [k0|]. eapply (Kbind _ _ _ _ (fun _ => True)); [|intros ? _; k0]. cbn beta in Hq. destruct (zptype q); [k0|k0|discriminate Hq].
    - intros qs _. eapply Kbind; [|intros ? _; k0]. clear - H0. induction (zbody p) as [|a l IHl]; [k0|]. cbn [forallb] in H0. sp. cbn [flat_stmts_z]. eapply Kbind; [apply Kstmt; assumption|intros ? _]. apply IHl. assumption. }
  apply (G init_st ps s em); [intros k b e []|exact E].
Qed.
Theorem safe_no_word : forall p, no_uint_k p = true -> cache_safe p.
Proof.
  intros p H. pose proof (cache_no_word p H) as C. unfold cache_safe, cache_clean in *. destruct (codegen p) as [[? em]|]; [|exact Logic.I]. unfold no_note, no_unsafe_note in *. rewrite Forall_forall in *. intros x I. specialize (C x I). destruct x; auto. destruct unsafe; [destruct C|exact Logic.I].
Qed.
End NoUint.
Section Two.
Context {PF : PrimeField}.
(** [no_word]: no unsigned integer is left. [no_uint]: and no field element is unpacked to as many bits as the field has. *)
Definition no_word (p : zprog) : bool := no_uint_k true p.
Definition no_uint (p : zprog) : bool := no_uint_k false p.
Ltac sp := repeat match goal with H : _ && _ = true |- _ => apply andb_prop in H as [? ?] end.
Lemma stricts_no_word : forall l, forallb (fs false) l = true -> stricts l = true.
Proof.
  assert (S : forall s, fs false s = true -> strict_s s = true).
  { fix IH 1. intros s H. assert (G : forall l, forallb (fs false) l = true -> stricts l = true).
    { induction l as [|a l IHl]; intros Q; [reflexivity|]. cbn [forallb] in Q. sp. cbn [stricts]. rewrite (IH a), IHl by assumption. rewrite andb_true_r, andb_true_l.
      destruct a as [| | | |xs em es|]; try reflexivity. destruct em; try reflexivity. cbn [fs fem orb] in H0. sp. rewrite H0. reflexivity. }
    destruct s as [| |c a b| | |]; try reflexivity. rewrite (fs_if false) in H. sp. rewrite strict_if, (G a), (G b) by assumption. reflexivity. }
  induction l as [|a l IHl]; intros Q; [reflexivity|]. cbn [forallb] in Q. sp. cbn [stricts]. rewrite (S a), IHl by assumption. rewrite andb_true_r, andb_true_l.
  destruct a as [| | | |xs em es|]; try reflexivity. destruct em; try reflexivity. cbn [fs fem orb] in H. sp. rewrite H. reflexivity.
Qed.
Theorem checked_no_uint : forall p, no_uint p = true -> unpacks_checked p.
Proof. intros p H. unfold no_uint, no_uint_k in H. sp. apply stricts_no_word. assumption. Qed.
End Two.
