(** Executable versions of the source typing [sty_prog] and of [max_ok_prog] and [smax_ok_prog], for the examples. *)
From Coq Require Import ZArith NArith List Bool Lia.
From Verif Require Import PField SMap IR Interp Bits Flat Zir Codegen CgBase CgGadgets CgExpr CgStmt CgProg UintOpt CgCheck.
Import ListNotations.
Open Scope Z_scope.

Section UCheck.
Context {PF : PrimeField}.
Definition pty_eqb (a b : ptype) : bool := match a, b with PF_, PF_ | PB_, PB_ => true | PU_ n, PU_ m => Nat.eqb n m | _, _ => false end.
Lemma pty_eqb_ok : forall a b, pty_eqb a b = true -> a = b.
Proof. intros [| |n] [| |m] H; try discriminate H; auto. apply Nat.eqb_eq in H. congruence. Qed.
Definition widb (w : nat) : bool := Nat.leb 1 w && Nat.leb (2 * w + 3) required_bits.
Lemma widb_ok : forall w, widb w = true -> wid w.
Proof. intros w H. apply andb_prop in H as [H1 H2]. apply Nat.leb_le in H1, H2. split; auto. Qed.
Definition tywidb (t : ptype) : bool := match t with PU_ w => widb w | _ => true end.
Lemma tywidb_ok : forall t, tywidb t = true -> tywid t.
Proof. intros [| |n] H; cbn in *; auto. apply widb_ok; auto. Qed.
Fixpoint tyb (S : senv) (e : zexp) (t : ptype) : bool :=
  match e with
  | ZFVal _ => pty_eqb t PF_
  | ZBVal _ => pty_eqb t PB_
  | ZUVal a n => pty_eqb t (PU_ (uw a)) && widb (uw a) && (0 <=? n) && (n <? pow2 (uw a))
  | ZId k x => pty_eqb t (kty k) && match S x with Some t' => pty_eqb t' t | None => false end && tywidb t
  | ZFBin _ l r => pty_eqb t PF_ && tyb S l PF_ && tyb S r PF_
  | ZPow e _ => pty_eqb t PF_ && tyb S e PF_
  | ZCmp op l r =>
      pty_eqb t PB_ &&
      match op with
      | CFLt | CFLe | CFEq => tyb S l PF_ && tyb S r PF_
      | CULt | CULe | CUEq => match kty (zkind l) with PU_ w => widb w && tyb S l (PU_ w) && tyb S r (PU_ w) | _ => false end
      end
  | ZBBin _ l r => pty_eqb t PB_ && tyb S l PB_ && tyb S r PB_
  | ZBNot e => pty_eqb t PB_ && tyb S e PB_
  | ZUBin a _ l r => pty_eqb t (PU_ (uw a)) && widb (uw a) && tyb S l t && tyb S r t
  | ZUNot a e => pty_eqb t (PU_ (uw a)) && widb (uw a) && tyb S e t
  | ZShl a e _ | ZShr a e _ => pty_eqb t (PU_ (uw a)) && widb (uw a) && widb 32 && tyb S e t
  | ZCond k c x y => pty_eqb t (kty k) && tywidb t && tyb S c PB_ && tyb S x t && tyb S y t
  | ZSel k es i =>
      pty_eqb t (kty k) && tywidb t && widb 32 && tyb S i (PU_ 32) && match es with [] => false | _ => true end && (Z.of_nat (length es) <=? pow2 32) &&
      (fix go (l : list zexp) : bool := match l with [] => true | e :: r => tyb S e t && go r end) es
  end.
Lemma tyb_ok : forall S e t, tyb S e t = true -> has_ty S e t.
Proof.
  intros S. induction e using zexp_ind'; intros t Hw; cbn [tyb has_ty] in *;
    repeat (match goal with X : _ && _ = true |- _ => apply andb_prop in X as [? ?] end);
    repeat (match goal with
    | X : pty_eqb _ _ = true |- _ => apply pty_eqb_ok in X
    | X : widb _ = true |- _ => apply widb_ok in X
    | X : tywidb _ = true |- _ => apply tywidb_ok in X
    | X : (_ <=? _) = true |- _ => apply Z.leb_le in X
    | X : (_ <? _) = true |- _ => apply Z.ltb_lt in X
    end); repeat (match goal with |- wid _ => assumption | |- tywid _ => assumption | |- _ /\ _ => split end); auto.
  - destruct (S x) as [t'|]; [|discriminate]. match goal with X : pty_eqb t' t = true |- _ => apply pty_eqb_ok in X end. congruence.
  - destruct op; try (match goal with X : _ && _ = true |- _ => apply andb_prop in X as [? ?] end; auto);
      (destruct (kty (zkind e1)) as [| |w]; try discriminate; repeat (match goal with X : _ && _ = true |- _ => apply andb_prop in X as [? ?] end); exists w;
       match goal with X : widb _ = true |- _ => apply widb_ok in X end; auto).
  - destruct es; discriminate.
  - match goal with X : _ es = true |- _ => revert X end. clear - H. induction H as [|x l Hx Hl IH]; intros E; auto. apply andb_prop in E as [E1 E2]. split; [auto|]. apply IH. exact E2.
Qed.
Definition etyb (S : senv) (e : zexp) : bool := tyb S e (kty (zkind e)).
Lemma etyb_ok : forall S es, forallb (etyb S) es = true -> Forall2 (has_ty S) es (map (fun e => kty (zkind e)) es).
Proof. intros S. induction es as [|e es IH]; intros H; cbn in *; constructor; apply andb_prop in H as [H1 H2]; auto. apply tyb_ok; auto. Qed.
Fixpoint tybs (S : senv) (es : list zexp) (ts : list ptype) : bool :=
  match es, ts with [], [] => true | e :: r, t :: u => tyb S e t && tybs S r u | _, _ => false end.
Lemma tybs_ok : forall S es ts, tybs S es ts = true -> Forall2 (has_ty S) es ts.
Proof. intros S. induction es as [|e es IH]; intros [|t ts] H; cbn in *; try discriminate; constructor; apply andb_prop in H as [H1 H2]; auto. apply tyb_ok; auto. Qed.
Definition embed_staticb (em : embed) : bool :=
  match em with
  | EToBits n | EFromBits n => widb n
  | EBitLe n => Nat.leb n required_bits
  | EUnpack n => Nat.leb n required_bits
  | EFieldToBool => true
  end.
Lemma embed_staticb_ok : forall em, embed_staticb em = true -> embed_static em.
Proof. intros [] H; cbn in *; auto using widb_ok; apply Nat.leb_le; auto. Qed.
Fixpoint styb (S : senv) (s : zstmt) : option senv :=
  match s with
  | ZReturn es | ZLog _ es => if forallb (etyb S) es then Some S else None
  | ZDef x e => if etyb S e then Some (supd S x (kty (zkind e))) else None
  | ZAssert e _ => if tyb S e PB_ then Some S else None
  | ZEmbed xs em es =>
      if tybs S es (embed_in em) && embed_staticb em && Nat.eqb (length xs) (length (embed_out em)) &&
         match em with EFromBits _ => forallb (fun x => match S x with None => true | _ => false end) xs | _ => true end
      then Some (supds S xs (embed_out em)) else None
  | ZIf c a b =>
      if tyb S c PB_ then
        match (fix go (S : senv) (l : list zstmt) : option senv := match l with [] => Some S | s :: r => match styb S s with Some S' => go S' r | None => None end end) S a with
        | Some S1 => (fix go (S : senv) (l : list zstmt) : option senv := match l with [] => Some S | s :: r => match styb S s with Some S' => go S' r | None => None end end) S1 b
        | None => None
        end else None
  end.
Definition stybs : senv -> list zstmt -> option senv :=
  fix go (S : senv) (l : list zstmt) : option senv := match l with [] => Some S | s :: r => match styb S s with Some S' => go S' r | None => None end end.
Lemma stybs_all : forall ss, Forall (fun s => forall S S', styb S s = Some S' -> sty_stmt S s S') ss -> forall S S', stybs S ss = Some S' -> sty_stmts S ss S'.
Proof.
  intros ss. induction 1 as [|s r Hs Hr IH]; intros S S' H; cbn [stybs] in H.
  - injection H as <-. constructor.
  - destruct (styb S s) as [S1|] eqn:E; [|discriminate]. econstructor; eauto.
Qed.
Lemma styb_ok : forall s S S', styb S s = Some S' -> sty_stmt S s S'.
Proof.
  induction s using zstmt_ind'; intros S S' HH; cbn [styb] in HH.
  - destruct (forallb (etyb S) es) eqn:E; [|discriminate]. injection HH as <-. econstructor. apply etyb_ok; auto.
  - destruct (etyb S e) eqn:E; [|discriminate]. injection HH as <-. constructor. apply tyb_ok; auto.
  - destruct (tyb S c PB_) eqn:E; [|discriminate]. fold stybs in HH. destruct (stybs S a) as [S1|] eqn:E1; [|discriminate]. econstructor; [apply tyb_ok; eauto|eapply stybs_all; eauto|eapply stybs_all; eauto].
  - destruct (tyb S e PB_) eqn:E; [|discriminate]. injection HH as <-. constructor. apply tyb_ok; auto.
  - match type of HH with (if ?b then _ else _) = _ => destruct b eqn:E; [|discriminate] end. injection HH as <-.
    apply andb_prop in E as [E E4]. apply andb_prop in E as [E E3]. apply andb_prop in E as [E1 E2]. constructor; [apply tybs_ok; auto|apply embed_staticb_ok; auto|apply Nat.eqb_eq; auto|].
    destruct em; auto. apply Forall_forall. intros x Hx. rewrite forallb_forall in E4. specialize (E4 x Hx). destruct (S x); congruence.
  - destruct (forallb (etyb S) es) eqn:E; [|discriminate]. injection HH as <-. econstructor. apply etyb_ok; auto.
Qed.
Definition last_ret (ss : list zstmt) (n : nat) : bool := match rev ss with ZReturn es :: _ => Nat.eqb (length es) n | _ => false end.
Definition sty_progb (p : zprog) : bool :=
  forallb (fun q => tywidb (zptype q)) (zargs p) && match stybs (sty_params (zargs p)) (zbody p) with Some _ => true | None => false end && last_ret (zbody p) (zret p).
Lemma sty_progb_ok : forall p, sty_progb p = true -> sty_prog p.
Proof.
  intros p H. apply andb_prop in H as [H H3]. apply andb_prop in H as [H1 H2]. split; [|split].
  - apply Forall_forall. intros q Hq. rewrite forallb_forall in H1. apply tywidb_ok; auto.
  - destruct (stybs (sty_params (zargs p)) (zbody p)) as [S|] eqn:E; [|discriminate]. exists S. eapply stybs_all; eauto. apply Forall_forall. intros s _. apply styb_ok.
  - unfold last_ret in H3. destruct (rev (zbody p)) as [|[] r] eqn:E; try discriminate H3. apply Nat.eqb_eq in H3. exists (rev r), es. split; auto. rewrite <- (rev_involutive (zbody p)), E. reflexivity.
Qed.

Definition annPb (P : ann -> bool) (e : zexp) : bool := match zkind e with KU a => P a | _ => true end.
Definition shl_okb (w k : nat) (m : Z) : bool := (m * pow2 k <? pow2 w) || (m mod pow2 w =? pow2 w - 1).
Definition shr_okb (w : nat) (m : Z) : bool := (m <? pow2 w) || (m mod pow2 w =? pow2 w - 1).
Lemma annPb_ok : forall P (Q : ann -> Prop) e, (forall a, P a = true -> Q a) -> annPb P e = true -> annP Q e.
Proof. intros P Q e H. unfold annPb, annP. destruct (zkind e); auto. Qed.
Fixpoint smax_okb (e : zexp) : bool :=
  match e with
  | ZFVal _ | ZBVal _ | ZUVal _ _ | ZId _ _ => true
  | ZFBin _ l r | ZCmp _ l r | ZBBin _ l r => smax_okb l && smax_okb r
  | ZPow e _ | ZBNot e | ZUNot _ e => smax_okb e
  | ZUBin _ op l r => smax_okb l && smax_okb r && match op with USub => annPb (fun a => fval (umax a) <? pow2 (required_bits - 2)) r | _ => true end
  | ZShl a e k => smax_okb e && annPb (fun ae => shl_okb (uw a) k (fval (umax ae))) e
  | ZShr a e _ => smax_okb e && annPb (fun ae => shr_okb (uw a) (fval (umax ae))) e
  | ZCond _ c x y => smax_okb c && smax_okb x && smax_okb y
  | ZSel _ es i => smax_okb i && (fix go (l : list zexp) : bool := match l with [] => true | e :: r => smax_okb e && go r end) es
  end.
Lemma smax_okb_ok : forall e, smax_okb e = true -> smax_ok e.
Proof.
  induction e using zexp_ind'; intros Hw; cbn [smax_okb smax_ok] in *; repeat (match goal with X : _ && _ = true |- _ => apply andb_prop in X as [? ?] end); auto.
  - split; auto. split; auto. destruct op; auto. revert H0. apply annPb_ok. intros a0. apply Z.ltb_lt.
  - split; auto. revert H0. apply annPb_ok. intros a0 X. apply orb_prop in X as [X|X]; [left; apply Z.ltb_lt; auto|right; apply Z.eqb_eq; auto].
  - split; auto. revert H0. apply annPb_ok. intros a0 X. apply orb_prop in X as [X|X]; [left; apply Z.ltb_lt; auto|right; apply Z.eqb_eq; auto].
  - split; auto. match goal with X : _ es = true |- _ => revert X end. clear - H. induction H as [|x l Hx Hl IH]; intros E; auto. apply andb_prop in E as [E1 E2]. split; [auto|]. apply IH. exact E2.
Qed.
Fixpoint smax_okb_stmt (s : zstmt) : bool :=
  match s with
  | ZReturn es | ZLog _ es | ZEmbed _ _ es => forallb smax_okb es
  | ZDef _ e | ZAssert e _ => smax_okb e
  | ZIf c a b => smax_okb c && (fix go (l : list zstmt) : bool := match l with [] => true | s :: r => smax_okb_stmt s && go r end) a &&
                 (fix go (l : list zstmt) : bool := match l with [] => true | s :: r => smax_okb_stmt s && go r end) b
  end.
Lemma smax_okbs_ok : forall es, forallb smax_okb es = true -> Forall smax_ok es.
Proof. intros es H. rewrite forallb_forall in H. apply Forall_forall. intros e He. apply smax_okb_ok; auto. Qed.
Lemma smax_okb_stmt_ok : forall s, smax_okb_stmt s = true -> smax_ok_stmt s.
Proof.
  induction s using zstmt_ind'; intros HH; cbn [smax_okb_stmt smax_ok_stmt] in *; repeat (match goal with X : _ && _ = true |- _ => apply andb_prop in X as [? ?] end); auto using smax_okbs_ok, smax_okb_ok.
  split; [apply smax_okb_ok; auto|]. split.
  - match goal with HA : Forall _ a, X : _ a = true |- _ => clear - HA X; induction HA as [|x l Hx Hl IH]; auto; apply andb_prop in X as [E1 E2]; split; [auto|apply IH; exact E2] end.
  - match goal with HA : Forall _ b, X : _ b = true |- _ => clear - HA X; induction HA as [|x l Hx Hl IH]; auto; apply andb_prop in X as [E1 E2]; split; [auto|apply IH; exact E2] end.
Qed.
Definition smax_ok_progb (p : zprog) : bool := forallb smax_okb_stmt (zbody p).
Lemma smax_ok_progb_ok : forall p, smax_ok_progb p = true -> smax_ok_prog p.
Proof. intros p H. unfold smax_ok_progb in H. rewrite forallb_forall in H. apply Forall_forall. intros s Hs. apply smax_okb_stmt_ok; auto. Qed.
Definition mopwb (op : uop) (P : zexp -> bool) (l : zexp) : bool :=
  match op with UXor | UAnd | UOr => match l with ZShl _ e _ | ZShr _ e _ => P e | _ => P l end | _ => P l end.
Fixpoint max_okb (e : zexp) : bool :=
  match e with
  | ZFVal _ | ZBVal _ | ZUVal _ _ | ZId _ _ => true
  | ZFBin _ l r | ZCmp _ l r | ZBBin _ l r => max_okb l && max_okb r
  | ZPow e _ | ZBNot e | ZUNot _ e => max_okb e
  | ZUBin _ op l r => mopwb op max_okb l && mopwb op max_okb r && match op with USub => annPb (fun a => fval (umax a) <? pow2 (required_bits - 2)) r | _ => true end
  | ZShl a e k => max_okb e && annPb (fun ae => shl_okb (uw a) k (fval (umax ae))) e
  | ZShr a e _ => max_okb e && annPb (fun ae => shr_okb (uw a) (fval (umax ae))) e
  | ZCond _ c x y => max_okb c && max_okb x && max_okb y
  | ZSel _ es i => max_okb i && (fix go (l : list zexp) : bool := match l with [] => true | e :: r => max_okb e && go r end) es
  end.
Lemma mopwb_ok : forall op l, (max_okb l = true -> max_ok l) -> sub_ (fun e => max_okb e = true -> max_ok e) l -> mopwb op max_okb l = true -> mopw op max_ok l.
Proof.
  intros op l A B C. assert (D : match l with ZShl _ e _ | ZShr _ e _ => max_okb e | _ => max_okb l end = true -> match l with ZShl _ e _ | ZShr _ e _ => max_ok e | _ => max_ok l end).
  { destruct l; cbn [sub_] in *; auto. }
  destruct op; cbn [mopw mopwb] in *; first [exact (D C)|exact (A C)].
Qed.
Lemma max_okb_ok : forall e, max_okb e = true -> max_ok e.
Proof.
  induction e using zexp_sub_ind; intros Hw; cbn [max_okb max_ok] in *; repeat (match goal with X : _ && _ = true |- _ => apply andb_prop in X as [? ?] end); auto.
  - split; [apply mopwb_ok; auto|]. split; [apply mopwb_ok; auto|]. match goal with X : match op with USub => _ | _ => _ end = true |- _ => revert X end. destruct op; auto. apply annPb_ok. intros a0. apply Z.ltb_lt.
  - split; auto. revert H0. apply annPb_ok. intros a0 X. apply orb_prop in X as [X|X]; [left; apply Z.ltb_lt; auto|right; apply Z.eqb_eq; auto].
  - split; auto. revert H0. apply annPb_ok. intros a0 X. apply orb_prop in X as [X|X]; [left; apply Z.ltb_lt; auto|right; apply Z.eqb_eq; auto].
  - split; auto. match goal with X : _ es = true |- _ => revert X end. clear - H. induction H as [|x l Hx Hl IH]; intros E; auto. apply andb_prop in E as [E1 E2]. split; [auto|]. apply IH. exact E2.
Qed.
Fixpoint max_okb_stmt (s : zstmt) : bool :=
  match s with
  | ZReturn es | ZLog _ es | ZEmbed _ _ es => forallb max_okb es
  | ZDef _ e | ZAssert e _ => max_okb e
  | ZIf c a b => max_okb c && (fix go (l : list zstmt) : bool := match l with [] => true | s :: r => max_okb_stmt s && go r end) a &&
                 (fix go (l : list zstmt) : bool := match l with [] => true | s :: r => max_okb_stmt s && go r end) b
  end.
Lemma max_okbs_ok : forall es, forallb max_okb es = true -> Forall max_ok es.
Proof. intros es H. rewrite forallb_forall in H. apply Forall_forall. intros e He. apply max_okb_ok; auto. Qed.
Lemma max_okb_stmt_ok : forall s, max_okb_stmt s = true -> max_ok_stmt s.
Proof.
  induction s using zstmt_ind'; intros HH; cbn [max_okb_stmt max_ok_stmt] in *; repeat (match goal with X : _ && _ = true |- _ => apply andb_prop in X as [? ?] end); auto using max_okbs_ok, max_okb_ok.
  split; [apply max_okb_ok; auto|]. split.
  - match goal with HA : Forall _ a, X : _ a = true |- _ => clear - HA X; induction HA as [|x l Hx Hl IH]; auto; apply andb_prop in X as [E1 E2]; split; [auto|apply IH; exact E2] end.
  - match goal with HA : Forall _ b, X : _ b = true |- _ => clear - HA X; induction HA as [|x l Hx Hl IH]; auto; apply andb_prop in X as [E1 E2]; split; [auto|apply IH; exact E2] end.
Qed.
Definition max_ok_progb (p : zprog) : bool := forallb max_okb_stmt (zbody p).
Lemma max_ok_progb_ok : forall p, max_ok_progb p = true -> max_ok_prog p.
Proof. intros p H. unfold max_ok_progb in H. rewrite forallb_forall in H. apply Forall_forall. intros s Hs. apply max_okb_stmt_ok; auto. Qed.
End UCheck.
