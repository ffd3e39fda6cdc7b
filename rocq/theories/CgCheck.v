(** Executable versions of the input conditions of the code generator ([wt], [wts], [wtp]), for the examples. *)
From Coq Require Import ZArith NArith List Bool Lia.
From Verif Require Import PField SMap IR Interp Bits Flat Zir Codegen CgBase CgGadgets CgExpr CgStmt CgEmit CgProg CgWf CgEnd.
Import ListNotations.
Open Scope Z_scope.

Section Check.
Context {PF : PrimeField}.
Definition ann_okb (a : ann) : bool := Nat.leb 1 (uw a) && Nat.leb (2 * uw a + 3) required_bits && (fval (umax a) <? pow2 (required_bits - 1)).
Definition redb (a : ann) : bool := match ured a with SRTrue => true | _ => false end.
Definition ubin_okb (a : ann) (op : uop) (al ar : ann) : bool :=
  match op with
  | UAdd => ubound al + ubound ar <=? fval (umax a)
  | USub => ubound al + pow2 (Nat.max (fbits (umax ar)) (uw a)) <=? fval (umax a)
  | UMul => ubound al * ubound ar <=? fval (umax a)
  | UDiv | URem => redb al && redb ar && (pow2 (uw a) - 1 <=? fval (umax a))
  | UXor | UAnd | UOr => pow2 (uw a) - 1 <=? fval (umax a)
  end.
Definition isF (k : kind) := match k with KF => true | _ => false end.
Definition isB (k : kind) := match k with KB => true | _ => false end.
Definition fitsb (k k' : kind) : bool :=
  match k, k' with
  | KU a, KU a' => Nat.eqb (uw a') (uw a) && (ubound a' <=? fval (umax a))
  | KF, KF | KB, KB => true
  | _, _ => false
  end.
Definition kind_okb (k : kind) := match k with KU a => ann_okb a | _ => true end.
Definition opndb (P : zexp -> bool) (l : zexp) : bool :=
  match l with
  | ZShl b e k => ann_okb b && redb b && P e && match zkind e with KU ae => Nat.eqb (uw ae) (uw b) && redb ae && (fval (umax b) =? (fval (umax ae) * pow2 k) mod pow2 (uw b)) | _ => false end
  | ZShr b e k => ann_okb b && redb b && P e && match zkind e with KU ae => Nat.eqb (uw ae) (uw b) && redb ae && (fval (umax b) =? fval (umax ae) mod pow2 (uw b) / pow2 k) | _ => false end
  | _ => P l
  end.
Definition opwb (op : uop) (P : zexp -> bool) (l : zexp) : bool := match op with UXor | UAnd | UOr => opndb P l | _ => P l end.
Fixpoint wtb (G : tenv) (e : zexp) : bool :=
  match e with
  | ZFVal _ | ZBVal _ => true
  | ZUVal a n => ann_okb a && (0 <=? n) && (n <? pow2 (uw a)) && (n <=? fval (umax a))
  | ZId k x => kind_okb k && match G x with Some k' => fitsb k k' | None => false end
  | ZFBin _ l r => wtb G l && wtb G r && isF (zkind l) && isF (zkind r)
  | ZPow e _ => wtb G e && isF (zkind e)
  | ZCmp op l r =>
      wtb G l && wtb G r &&
      match op with
      | CFLt | CFLe | CFEq => isF (zkind l) && isF (zkind r)
      | CULt | CULe | CUEq => match zkind l, zkind r with KU al, KU ar => Nat.eqb (uw al) (uw ar) && redb al && redb ar | _, _ => false end
      end
  | ZBBin _ l r => wtb G l && wtb G r && isB (zkind l) && isB (zkind r)
  | ZBNot e => wtb G e && isB (zkind e)
  | ZUBin a op l r =>
      ann_okb a && opwb op (wtb G) l && opwb op (wtb G) r &&
      match zkind l, zkind r with KU al, KU ar => Nat.eqb (uw al) (uw a) && Nat.eqb (uw ar) (uw a) && ubin_okb a op al ar | _, _ => false end
  | ZUNot a e => ann_okb a && wtb G e && match zkind e with KU ae => Nat.eqb (uw ae) (uw a) | _ => false end && (pow2 (uw a) - 1 <=? fval (umax a))
  | ZShl a e k => ann_okb a && wtb G e && match zkind e with KU ae => Nat.eqb (uw ae) (uw a) && (Z.min (ubound ae * pow2 k) (pow2 (uw a) - pow2 (Nat.min k (uw a))) <=? fval (umax a)) | _ => false end
  | ZShr a e k => ann_okb a && wtb G e && match zkind e with KU ae => Nat.eqb (uw ae) (uw a) && (ubound ae / pow2 k <=? fval (umax a)) | _ => false end
  | ZCond k c x y => kind_okb k && wtb G c && wtb G x && wtb G y && isB (zkind c) && fitsb k (zkind x) && fitsb k (zkind y)
  | ZSel k es i =>
      kind_okb k && wtb G i && match zkind i with KU ai => Nat.eqb (uw ai) 32 && redb ai | _ => false end && (Z.of_nat (length es) <=? pow2 32) &&
      (fix go (l : list zexp) : bool := match l with [] => true | e :: r => wtb G e && fitsb k (zkind e) && go r end) es
  end.
Lemma ann_okb_ok : forall a, ann_okb a = true -> ann_ok a.
Proof. intros a H. unfold ann_okb in H. apply andb_prop in H as [H H3]. apply andb_prop in H as [H1 H2]. apply Nat.leb_le in H1, H2. apply Z.ltb_lt in H3. repeat split; auto. Qed.
Lemma redb_ok : forall a, redb a = true -> redT a.
Proof. intros a H. unfold redb, redT in *. destruct (ured a); congruence. Qed.
Lemma ubin_okb_ok : forall a op al ar, ubin_okb a op al ar = true -> ubin_ok a op al ar.
Proof.
  intros a op al ar H. destruct op; cbn in *; try (apply Z.leb_le; assumption);
    (apply andb_prop in H as [H H3]; apply andb_prop in H as [H1 H2]; apply Z.leb_le in H3; repeat split; auto; apply redb_ok; auto).
Qed.
Lemma isF_ok : forall k, isF k = true -> k = KF. Proof. intros []; cbn; congruence. Qed.
Lemma isB_ok : forall k, isB k = true -> k = KB. Proof. intros []; cbn; congruence. Qed.
Lemma fitsb_ok : forall k k', fitsb k k' = true -> fits k k'.
Proof. intros [| |a] [| |a'] H; cbn in *; try discriminate; auto. apply andb_prop in H as [H1 H2]. apply Nat.eqb_eq in H1. apply Z.leb_le in H2. eauto. Qed.
Lemma kind_okb_ok : forall k, kind_okb k = true -> kind_ok k.
Proof. intros [| |a]; cbn; auto. apply ann_okb_ok. Qed.
Lemma opwb_ok : forall G op l, (wtb G l = true -> wt G l) -> sub_ (fun e => wtb G e = true -> wt G e) l -> opwb op (wtb G) l = true -> opw op (wt G) l.
Proof.
  intros G op l A B W. assert (N : opndb (wtb G) l = true -> opnd (wt G) l).
  { destruct l as [| | | | | | | | | | |b e k|b e k| | ]; cbn [opndb opnd sub_] in *; auto; intros X; apply andb_prop in X as [X X4]; apply andb_prop in X as [X X3]; apply andb_prop in X as [X1 X2];
      (split; [apply ann_okb_ok; auto|]); (split; [apply redb_ok; auto|]); (split; [auto|]); (destruct (zkind e) as [| |ae]; try discriminate);
      apply andb_prop in X4 as [Y Y3]; apply andb_prop in Y as [Y1 Y2]; apply Nat.eqb_eq in Y1; apply Z.eqb_eq in Y3; exists ae; repeat split; auto; apply redb_ok; auto. }
  destruct op; cbn [opw opwb] in *; auto.
Qed.
Lemma wtb_ok : forall G e, wtb G e = true -> wt G e.
Proof.
  intros G. induction e using zexp_sub_ind; intros Hw; cbn [wtb wt] in *;
    repeat (match goal with X : _ && _ = true |- _ => apply andb_prop in X as [? ?] end); 
    repeat (match goal with
    | X : ann_okb _ = true |- _ => apply ann_okb_ok in X
    | X : kind_okb _ = true |- _ => apply kind_okb_ok in X
    | X : isF _ = true |- _ => apply isF_ok in X
    | X : isB _ = true |- _ => apply isB_ok in X
    | X : fitsb _ _ = true |- _ => apply fitsb_ok in X
    | X : (_ <=? _) = true |- _ => apply Z.leb_le in X
    | X : (_ <? _) = true |- _ => apply Z.ltb_lt in X
    end); repeat (match goal with |- ann_ok _ => assumption | |- kind_ok _ => assumption | |- _ /\ _ => split end); auto.
  - destruct (G x) as [k'|]; [|discriminate]. apply fitsb_ok in H0. eauto.
  - destruct op; try (apply andb_prop in H0 as [A B]; apply isF_ok in A, B; auto);
      (destruct (zkind e1) as [| |al]; try discriminate; destruct (zkind e2) as [| |ar]; try discriminate;
       apply andb_prop in H0 as [A B]; apply andb_prop in A as [A C]; apply Nat.eqb_eq in A; apply redb_ok in B, C; exists al, ar; auto).
  - eapply opwb_ok; eauto.
  - eapply opwb_ok; eauto.
  - destruct (zkind e1) as [| |al]; try discriminate. destruct (zkind e2) as [| |ar]; try discriminate.
    match goal with X : Nat.eqb _ _ && _ && _ = true |- _ => apply andb_prop in X as [A B] end. apply andb_prop in A as [A C]. apply Nat.eqb_eq in A, C. apply ubin_okb_ok in B. exists al, ar. auto.
  - destruct (zkind e) as [| |ae]; try discriminate. apply Nat.eqb_eq in H1. eauto.
  - destruct (zkind e) as [| |ae]; try discriminate. apply andb_prop in H0 as [A B]. apply Nat.eqb_eq in A. apply Z.leb_le in B. eauto.
  - destruct (zkind e) as [| |ae]; try discriminate. apply andb_prop in H0 as [A B]. apply Nat.eqb_eq in A. apply Z.leb_le in B. eauto.
  - destruct (zkind e) as [| |ai]; try discriminate. match goal with X : Nat.eqb _ 32 && _ = true |- _ => apply andb_prop in X as [A B] end. apply Nat.eqb_eq in A. apply redb_ok in B. eauto.
  - match goal with X : _ es = true |- _ => revert X end. clear - H. induction H as [|x l Hx Hl IH]; intros E; auto. apply andb_prop in E as [E1 E2]. apply andb_prop in E1 as [E1 E3]. apply fitsb_ok in E3. split; [auto|]. split; [auto|]. apply IH. exact E2.
Qed.

Definition out_okb (G : tenv) (e : zexp) : bool := wtb G e && match zkind e with KU a => redb a | _ => true end.
Definition embed_argsb (em : embed) (ks : list kind) : bool :=
  match em, ks with
  | EFieldToBool, [KF] => true
  | EToBits n, [KU a] => Nat.eqb (uw a) n
  | EFromBits n, _ => Nat.leb 1 n && Nat.leb (2 * n + 3) required_bits && Nat.eqb (length ks) n && forallb isB ks
  | EBitLe n, _ => Nat.leb n required_bits && Nat.eqb (length ks) (2 * n) && forallb isB ks
  | EUnpack n, [KF] => Nat.leb n required_bits
  | _, _ => false
  end.
Fixpoint wtsb (G : tenv) (s : zstmt) : bool :=
  match s with
  | ZReturn es | ZLog _ es => forallb (out_okb G) es
  | ZDef _ e => wtb G e
  | ZAssert e _ => wtb G e && isB (zkind e)
  | ZEmbed xs em es =>
      forallb (out_okb G) es && embed_argsb em (map zkind es) && Nat.eqb (length xs) (length (embed_kinds em)) &&
      match em with EFromBits _ => forallb (fun x => match G x with None => true | _ => false end) xs | _ => true end
  | ZIf c a b =>
      wtb G c && isB (zkind c) &&
      (fix go (G : tenv) (l : list zstmt) : bool := match l with [] => true | s :: r => wtsb G s && go (tpost G s) r end) G a &&
      (fix go (G : tenv) (l : list zstmt) : bool := match l with [] => true | s :: r => wtsb G s && go (tpost G s) r end) (fold_left tpost a G) b
  end.
Fixpoint wtssb (G : tenv) (l : list zstmt) : bool := match l with [] => true | s :: r => wtsb G s && wtssb (tpost G s) r end.
Lemma out_okb_ok : forall G es, forallb (out_okb G) es = true -> Forall (out_ok G) es.
Proof.
  intros G es H. rewrite forallb_forall in H. apply Forall_forall. intros e He. specialize (H e He). apply andb_prop in H as [H1 H2]. apply wtb_ok in H1.
  split; auto. destruct (zkind e); auto. apply redb_ok; auto.
Qed.
Lemma all_bool : forall ks n, length ks = n -> forallb isB ks = true -> ks = repeat KB n.
Proof. induction ks as [|k ks IH]; intros n <- H; cbn in *; auto. apply andb_prop in H as [H1 H2]. apply isB_ok in H1. f_equal; auto. Qed.
Lemma embed_argsb_ok : forall em ks, embed_argsb em ks = true -> embed_args em ks.
Proof.
  intros em ks H. destruct em; cbn in *.
  - destruct ks as [|[] []]; try discriminate. auto.
  - destruct ks as [|[] []]; try discriminate. apply Nat.eqb_eq in H. eauto.
  - apply andb_prop in H as [H H4]. apply andb_prop in H as [H H3]. apply andb_prop in H as [H1 H2]. apply Nat.leb_le in H2. apply Nat.eqb_eq in H3.
    split; [destruct w; [discriminate|lia]|]. split; [auto|]. apply all_bool; auto.
  - apply andb_prop in H as [H H4]. apply andb_prop in H as [H1 H2]. apply Nat.leb_le in H1. apply Nat.eqb_eq in H2. split; auto. apply all_bool; auto.
  - destruct ks as [|[] []]; try discriminate. apply Nat.leb_le in H. auto.
Qed.
Lemma wtsb_ok : forall s G, wtsb G s = true -> wts G s.
Proof.
  induction s using zstmt_ind'; intros G HH; cbn [wtsb wts] in *; repeat (match goal with X : _ && _ = true |- _ => apply andb_prop in X as [? ?] end).
  - apply out_okb_ok; auto.
  - apply wtb_ok; auto.
  - match goal with X : isB _ = true |- _ => apply isB_ok in X end. split; [apply wtb_ok; auto|]. split; auto. split.
    + match goal with HA : Forall _ a, X : _ G a = true |- _ => clear - HA X; revert G X; induction HA as [|x l Hx Hl IH]; intros G E; [exact I|]; apply andb_prop in E as [E1 E2]; split; [auto|apply IH; exact E2] end.
    + match goal with HA : Forall _ b, X : _ _ b = true |- _ => revert X; generalize (fold_left tpost a G); clear - HA; induction HA as [|x l Hx Hl IH]; intros G0 E; [exact I|]; apply andb_prop in E as [E1 E2]; split; [auto|apply IH; exact E2] end.
  - match goal with X : isB _ = true |- _ => apply isB_ok in X end. split; [apply wtb_ok|]; auto.
  - split; [apply out_okb_ok; auto|]. split; [apply embed_argsb_ok; auto|]. split; [apply Nat.eqb_eq; auto|].
    destruct em; auto. apply Forall_forall. intros x Hx. match goal with X : forallb _ xs = true |- _ => rewrite forallb_forall in X; specialize (X x Hx) end. destruct (G x); congruence.
  - apply out_okb_ok; auto.
Qed.
Lemma wtssb_ok : forall ss G, wtssb G ss = true -> wtss G ss.
Proof. induction ss as [|s r IH]; intros G H; cbn in *; auto. apply andb_prop in H as [H1 H2]. split; auto. apply wtsb_ok; auto. Qed.
Definition param_okb (p : zparam) : bool := match zptype p with PU_ n => Nat.leb 1 n && Nat.leb (2 * n + 3) required_bits | _ => true end.
Definition wtpb (p : zprog) : bool :=
  forallb param_okb (zargs p) && wtssb (ptenv (fun _ => None) (zargs p)) (zbody p) &&
  match rev (zbody p) with ZReturn es :: _ => Nat.eqb (length es) (zret p) | _ => false end.
Lemma wtpb_ok : forall p, wtpb p = true -> wtp p.
Proof.
  intros p H. unfold wtpb in H. apply andb_prop in H as [H H3]. apply andb_prop in H as [H1 H2]. split; [|split].
  - rewrite forallb_forall in H1. apply Forall_forall. intros q Hq. specialize (H1 q Hq). unfold param_okb, param_ok in *. destruct (zptype q) as [| |n]; auto.
    apply andb_prop in H1 as [A B]. apply Nat.leb_le in B. destruct n; [discriminate|]. split; [lia|auto].
  - apply wtssb_ok; auto.
  - destruct (rev (zbody p)) as [|[] l] eqn:E; try discriminate. apply Nat.eqb_eq in H3. exists (rev l), es. split; auto.
    rewrite <- (rev_involutive (zbody p)), E. reflexivity.
Qed.
Fixpoint noretb (s : zstmt) : bool :=
  match s with
  | ZReturn _ => false
  | ZIf _ a b => forallb noretb a && forallb noretb b
  | _ => true
  end.
Lemma noretb_ok : forall s, noretb s = true -> noret s.
Proof.
  induction s using zstmt_ind'; intros HH; cbn [noretb noret] in *; auto; [discriminate|]. apply andb_prop in HH as [H1 H2]. rewrite forallb_forall in H1, H2.
  split.
  - match goal with HA : Forall _ a |- _ => clear - HA H1; induction HA as [|x l Hx Hl IH]; auto; split; [apply Hx, H1; left; auto|apply IH; intros y Hy; apply H1; right; auto] end.
  - match goal with HA : Forall _ b |- _ => clear - HA H2; induction HA as [|x l Hx Hl IH]; auto; split; [apply Hx, H2; left; auto|apply IH; intros y Hy; apply H2; right; auto] end.
Qed.
Definition ends_returnb (p : zprog) : bool :=
  match rev (zbody p) with ZReturn es :: l => Nat.eqb (length es) (zret p) && forallb noretb l | _ => false end.
Lemma ends_returnb_ok : forall p, ends_returnb p = true -> ends_return p.
Proof.
  intros p H. unfold ends_returnb in H. destruct (rev (zbody p)) as [|[] l] eqn:E; try discriminate. apply andb_prop in H as [H1 H2]. apply Nat.eqb_eq in H1.
  exists (rev l), es. split; [|split; auto].
  - rewrite <- (rev_involutive (zbody p)), E. reflexivity.
  - rewrite forallb_forall in H2. apply Forall_forall. intros s Hs. apply in_rev in Hs. apply noretb_ok; auto.
Qed.
Definition cleanb (p : zprog) : bool := stricts (zbody p) && match codegen p with Some (_, em) => forallb (fun s => match s with XNote _ => false | _ => true end) em | None => true end.
Lemma cleanb_ok : forall p, cleanb p = true -> cache_clean p /\ cache_safe p.
Proof.
  intros p H. apply andb_prop in H as [_ H]. unfold cleanb, cache_clean, cache_safe in *. destruct (codegen p) as [[prms em]|]; auto. rewrite forallb_forall in H.
  unfold no_note, no_unsafe_note. split; apply Forall_forall; intros s Hs; specialize (H s Hs); destruct s; auto; discriminate.
Qed.
Lemma cleanb_checked : forall p, cleanb p = true -> unpacks_checked p.
Proof. intros p H. apply andb_prop in H as [H _]. exact H. Qed.
End Check.
