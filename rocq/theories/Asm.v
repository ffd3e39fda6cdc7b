(** Model of the assembly constraint transformer, /repo/zokrates_analysis/src/assembly_transformer.rs l.33-160, and of
    /repo/zokrates_ast/src/zir/lqc.rs (LinQuadComb). A constraint [l === r] is a pair of field expressions. *)
From Coq Require Import ZArith NArith List Bool Lia Ring.
From Verif Require Import PField IR Interp Bits Flat Zir Codegen CgBase CgExpr CgProg UintOpt UintOptProofs Panic DeadCode ZProp.
Import ListNotations.
Open Scope Z_scope.

Section Asm.
Context {PF : PrimeField}.
Notation "x <~ m ; k" := (obind m (fun x => k)) (at level 61, m at next level, right associativity).

(** zir/mod.rs l.737-749 *)
Fixpoint is_linear (e : zexp) : bool :=
  match e with
  | ZFVal _ => true
  | ZId KF _ => true
  | ZFBin FAdd l r | ZFBin FSub l r => is_linear l && is_linear r
  | ZFBin FMul (ZFVal _) _ | ZFBin FMul _ (ZFVal _) => true
  | _ => false
  end.
(** lqc.rs l.7-15 *)
Record lqc := mkLqc { lqk : F; lql : list (F * ident); lqq : list (F * ident * ident) }.
Definition lneg (t : F * ident) : F * ident := (fsub f0 (fst t), snd t).
Definition lscale (c : F) (t : F * ident) : F * ident := (fmul (fst t) c, snd t).
Definition qneg (t : F * ident * ident) : F * ident * ident := (fsub f0 (fst (fst t)), snd (fst t), snd t).
Definition qscale (c : F) (t : F * ident * ident) : F * ident * ident := (fmul (fst (fst t)) c, snd (fst t), snd t).
(** l.17-60 *)
Definition lqc_add (a b : lqc) : lqc := mkLqc (fadd (lqk a) (lqk b)) (lql a ++ lql b) (lqq a ++ lqq b).
Definition lqc_sub (a b : lqc) : lqc := mkLqc (fsub (lqk a) (lqk b)) (lql a ++ map lneg (lql b)) (lqq a ++ map qneg (lqq b)).
(** l.62-104 try_mul: fails only when both sides have quadratic terms; products of a quadratic and a linear term are dropped *)
Definition lqc_mul (a b : lqc) : option lqc :=
  if negb (match lqq a with [] => true | _ => false end || match lqq b with [] => true | _ => false end) then None else
  Some (mkLqc (fmul (lqk a) (lqk b))
    (map (lscale (lqk b)) (lql a) ++ map (lscale (lqk a)) (lql b))
    (map (qscale (lqk b)) (lqq a) ++ map (qscale (lqk a)) (lqq b) ++
     flat_map (fun l => map (fun r => (fmul (fst l) (fst r), snd l, snd r)) (lql b)) (lql a))).
(** l.106-135 try_from *)
Fixpoint to_lqc (e : zexp) : option lqc :=
  match e with
  | ZFVal c => Some (mkLqc c [] [])
  | ZId KF x => Some (mkLqc f0 [(f1, x)] [])
  | ZFBin FAdd l r => a <~ to_lqc l; b <~ to_lqc r; Some (lqc_add a b)
  | ZFBin FSub l r => a <~ to_lqc l; b <~ to_lqc r; Some (lqc_sub a b)
  | ZFBin FMul l r => a <~ to_lqc l; b <~ to_lqc r; lqc_mul a b
  | _ => None
  end.
(** assembly_transformer.rs l.83-108: scan over the quadratic terms, keeping the factors common to all terms so far; the last
    state's last factor. Once no factor is left the scan stops, its last output being the empty list. *)
Fixpoint common (fs : list ident) (qs : list (F * ident * ident)) : list ident :=
  match qs with
  | [] => fs
  | (_, a, b) :: r => match fs with [] => [] | _ => common (filter (fun x => (x =? a) || (x =? b)) fs) r end
  end.
Definition common_factor (qs : list (F * ident * ident)) : option ident :=
  match qs with [] => None | (_, a, b) :: r => match rev (common [a; b] r) with [] => None | x :: _ => Some x end end.
(** l.63-78 *)
Definition lin_exp (k : F) (l : list (F * ident)) : zexp :=
  ZFBin FAdd (ZFVal k) (fold_left (fun acc t => ZFBin FAdd acc (ZFBin FMul (ZFVal (fst t)) (ZId KF (snd t)))) l (ZFVal f0)).
(** l.112-130; None: unreachable!() *)
Definition other_factor (f : ident) (t : F * ident * ident) : option zexp :=
  let '(c, a, b) := t in
  e <~ (if f =? a then Some (ZId KF b) else if f =? b then Some (ZId KF a) else None); Some (ZFBin FMul (ZFVal (fsub f0 c)) e).
(** l.80-147 *)
Definition quad_exp (qs : list (F * ident * ident)) : option zexp :=
  match qs with
  | [] => Some (ZFVal f0)
  | [(c, a, b)] => Some (ZFBin FMul (ZFBin FMul (ZFVal (fsub f0 c)) (ZId KF a)) (ZId KF b))
  | _ => f <~ common_factor qs; ts <~ mapO (other_factor f) qs;
         Some (ZFBin FMul (fold_left (fun acc e => ZFBin FAdd acc e) ts (ZFVal f0)) (ZId KF f))
  end.
(** l.41-57: (already quadratic, lhs, rhs) *)
Definition is_mult (e : zexp) : option (zexp * zexp) := match e with ZFBin FMul a b => Some (a, b) | _ => None end.
Definition is_fid (e : zexp) : bool := match e with ZId KF _ => true | _ => false end.
Definition classify (l r : zexp) : bool * zexp * zexp :=
  if is_fid l && is_fid r then (true, l, r) else
  match is_mult l, is_linear r with
  | Some (a, b), true => (is_linear a && is_linear b, r, l)
  | _, _ => match is_mult r, is_linear l with
            | Some (a, b), true => (is_linear a && is_linear b, l, r)
            | _, _ => (false, l, r)
            end
  end.
(** l.36-158 *)
Definition transform (l r : zexp) : option (zexp * zexp) :=
  let '(quadratic, l, r) := classify l r in
  if quadratic then Some (l, r) else
  q <~ to_lqc (ZFBin FSub l r);
  rhs <~ quad_exp (lqq q);
  l' <~ prop (fun _ => None) (lin_exp (lqk q) (lql q)); r' <~ prop (fun _ => None) rhs; Some (l', r').

(** ** Specification: the value of a combination, the degree of an expression *)
Definition get (rho : env_s) (x : ident) : F := match rho x with Some (VF v) => v | _ => f0 end.
Definition lval (rho : env_s) (l : list (F * ident)) : F := fold_right (fun t acc => fadd (fmul (fst t) (get rho (snd t))) acc) f0 l.
Definition qval (rho : env_s) (l : list (F * ident * ident)) : F :=
  fold_right (fun t acc => fadd (fmul (fmul (fst (fst t)) (get rho (snd (fst t)))) (get rho (snd t))) acc) f0 l.
Definition lqval (rho : env_s) (q : lqc) : F := fadd (lqk q) (fadd (lval rho (lql q)) (qval rho (lqq q))).
(** polynomial degree, None if another operator occurs *)
Fixpoint degree (e : zexp) : option nat :=
  match e with
  | ZFVal _ => Some 0%nat
  | ZId KF _ => Some 1%nat
  | ZFBin FAdd l r | ZFBin FSub l r => a <~ degree l; b <~ degree r; Some (Nat.max a b)
  | ZFBin FMul l r => a <~ degree l; b <~ degree r; Some (a + b)%nat
  | _ => None
  end.

Add Ring Fring : F_ring_th.
Ltac ob H := match type of H with
  | obind ?m _ = Some _ => let E := fresh "E" in destruct m eqn:E; cbn [obind] in H; [|discriminate H]
  end.
Lemma lval_cons : forall rho t l, lval rho (t :: l) = fadd (fmul (fst t) (get rho (snd t))) (lval rho l).
Proof. reflexivity. Qed.
Lemma qval_cons : forall rho t l, qval rho (t :: l) = fadd (fmul (fmul (fst (fst t)) (get rho (snd (fst t)))) (get rho (snd t))) (qval rho l).
Proof. reflexivity. Qed.
Lemma lval_nil : forall rho, lval rho [] = f0. Proof. reflexivity. Qed.
Lemma qval_nil : forall rho, qval rho [] = f0. Proof. reflexivity. Qed.
Lemma lval_app : forall rho a b, lval rho (a ++ b) = fadd (lval rho a) (lval rho b).
Proof. induction a as [|t a IH]; intros b; cbn [app]; [rewrite lval_nil; ring|]. rewrite !lval_cons, IH. ring. Qed.
Lemma qval_app : forall rho a b, qval rho (a ++ b) = fadd (qval rho a) (qval rho b).
Proof. induction a as [|t a IH]; intros b; cbn [app]; [rewrite qval_nil; ring|]. rewrite !qval_cons, IH. ring. Qed.
Lemma lval_neg : forall rho l, lval rho (map lneg l) = fsub f0 (lval rho l).
Proof. induction l as [|t l IH]; cbn [map]; [rewrite lval_nil; ring|]. rewrite !lval_cons, IH. cbn [lneg fst snd]. ring. Qed.
Lemma qval_neg : forall rho l, qval rho (map qneg l) = fsub f0 (qval rho l).
Proof. induction l as [|t l IH]; cbn [map]; [rewrite qval_nil; ring|]. rewrite !qval_cons, IH. cbn [qneg fst snd]. ring. Qed.
Lemma lval_scale : forall rho c l, lval rho (map (lscale c) l) = fmul c (lval rho l).
Proof. induction l as [|t l IH]; cbn [map]; [rewrite lval_nil; ring|]. rewrite !lval_cons, IH. cbn [lscale fst snd]. ring. Qed.
Lemma qval_scale : forall rho c l, qval rho (map (qscale c) l) = fmul c (qval rho l).
Proof. induction l as [|t l IH]; cbn [map]; [rewrite qval_nil; ring|]. rewrite !qval_cons, IH. cbn [qscale fst snd]. ring. Qed.
Lemma qval_prod : forall rho a b, qval rho (flat_map (fun l => map (fun r => (fmul (fst l) (fst r), snd l, snd r)) b) a) = fmul (lval rho a) (lval rho b).
Proof.
  induction a as [|t a IH]; intros b; cbn [flat_map]; [rewrite lval_nil, qval_nil; ring|]. rewrite qval_app, IH, lval_cons.
  assert (G : qval rho (map (fun r => (fmul (fst t) (fst r), snd t, snd r)) b) = fmul (fmul (fst t) (get rho (snd t))) (lval rho b)).
  { clear. induction b as [|u b IHb]; cbn [map]; [rewrite lval_nil, qval_nil; ring|]. rewrite qval_cons, lval_cons, IHb. cbn [fst snd]. ring. }
  rewrite G. ring.
Qed.
(** a combination whose degree is at most d, syntactically *)
Definition lowdeg (d : nat) (q : lqc) : Prop := (d = 0%nat -> lql q = []) /\ ((d <= 1)%nat -> lqq q = []).
Lemma map_nil : forall A B (f : A -> B) l, l = [] -> map f l = []. Proof. intros A B f l ->. reflexivity. Qed.
Lemma to_lqc_ok : forall e d, degree e = Some d -> (d <= 2)%nat -> exists q, to_lqc e = Some q /\ lowdeg d q /\
  forall rho v, sem rho e = Some (VF v) -> lqval rho q = v.
Proof.
  induction e using zexp_ind'; intros d D Hd; cbn [degree] in D; try discriminate D.
  - injection D as <-. exists (mkLqc c [] []). split; [reflexivity|]. split; [split; auto|]. intros rho v E. cbn in E. injection E as <-. unfold lqval. cbn. ring.
  - destruct k; try discriminate D. injection D as <-. exists (mkLqc f0 [(f1, x)] []). split; [reflexivity|]. split; [split; [intros X; discriminate X|auto]|].
    intros rho v E. cbn in E. unfold lqval. cbn. unfold get. rewrite E. ring.
  - destruct op; cbn [degree] in D; try discriminate D; ob D; ob D; injection D as <-.
    + destruct (IHe1 _ eq_refl) as [q1 [A1 [A2 A3]]]; [lia|]. destruct (IHe2 _ eq_refl) as [q2 [B1 [B2 B3]]]; [lia|]. exists (lqc_add q1 q2). cbn [to_lqc]. rewrite A1, B1. split; [reflexivity|]. split.
      * destruct A2 as [A21 A22], B2 as [B21 B22]. split; intros X; cbn [lqc_add lql lqq]; [rewrite A21, B21 by lia|rewrite A22, B22 by lia]; reflexivity.
      * intros rho v E1. cbn [sem] in E1. destruct (sem rho e1) as [[x| |]|] eqn:X; try discriminate E1. destruct (sem rho e2) as [[y| |]|] eqn:Y; try discriminate E1. cbn in E1. injection E1 as <-.
        rewrite <- (A3 rho x X), <- (B3 rho y Y). unfold lqval. cbn [lqc_add lqk lql lqq]. rewrite lval_app, qval_app. ring.
    + destruct (IHe1 _ eq_refl) as [q1 [A1 [A2 A3]]]; [lia|]. destruct (IHe2 _ eq_refl) as [q2 [B1 [B2 B3]]]; [lia|]. exists (lqc_sub q1 q2). cbn [to_lqc]. rewrite A1, B1. split; [reflexivity|]. split.
      * destruct A2 as [A21 A22], B2 as [B21 B22]. split; intros X; cbn [lqc_sub lql lqq]; [rewrite A21, B21 by lia|rewrite A22, B22 by lia]; reflexivity.
      * intros rho v E1. cbn [sem] in E1. destruct (sem rho e1) as [[x| |]|] eqn:X; try discriminate E1. destruct (sem rho e2) as [[y| |]|] eqn:Y; try discriminate E1. cbn in E1. injection E1 as <-.
        rewrite <- (A3 rho x X), <- (B3 rho y Y). unfold lqval. cbn [lqc_sub lqk lql lqq]. rewrite lval_app, qval_app, lval_neg, qval_neg. ring.
    + destruct (IHe1 _ eq_refl) as [q1 [A1 [A2 A3]]]; [lia|]. destruct (IHe2 _ eq_refl) as [q2 [B1 [B2 B3]]]; [lia|]. cbn [to_lqc]. rewrite A1, B1. cbn [obind].
      destruct A2 as [A21 A22], B2 as [B21 B22].
      assert (K : (lqq q1 = [] /\ lqq q2 = []) \/ (lql q1 = [] /\ lqq q1 = []) \/ (lql q2 = [] /\ lqq q2 = [])).
      { destruct n as [|[|[|n]]]; [right; left; split; [apply A21|apply A22]; lia|left; split; [apply A22|apply B22]; lia|right; right; split; [apply B21|apply B22]; lia|lia]. }
      unfold lqc_mul. assert (Eb : (match lqq q1 with [] => true | _ => false end || match lqq q2 with [] => true | _ => false end) = true).
      { destruct K as [[K1 K2]|[[K1 K2]|[K1 K2]]]; rewrite ?K1, ?K2; auto. apply orb_true_r. }
      rewrite Eb. cbn [negb]. eexists. split; [reflexivity|]. split.
      * split; intros X; cbn [lql lqq].
        -- rewrite (A21 ltac:(lia)), (B21 ltac:(lia)). reflexivity.
        -- rewrite (A22 ltac:(lia)), (B22 ltac:(lia)). destruct n as [|n]; [rewrite (A21 eq_refl); reflexivity|]. rewrite (B21 ltac:(lia)). cbn [map app]. clear. induction (lql q1) as [|t ts IH]; [reflexivity|exact IH].
      * intros rho v E1. cbn [sem] in E1. destruct (sem rho e1) as [[x| |]|] eqn:X; try discriminate E1. destruct (sem rho e2) as [[y| |]|] eqn:Y; try discriminate E1. cbn in E1. injection E1 as <-.
        rewrite <- (A3 rho x X), <- (B3 rho y Y). unfold lqval. cbn [lqk lql lqq]. rewrite lval_app, !qval_app, !lval_scale, !qval_scale, qval_prod.
        destruct K as [[K1 K2]|[[K1 K2]|[K1 K2]]]; rewrite ?K1, ?K2; rewrite ?lval_nil, ?qval_nil; try ring.
Qed.

(** ** The output *)
Definition fids (q : lqc) : list ident := map snd (lql q) ++ flat_map (fun t => [snd (fst t); snd t]) (lqq q).
Definition fdef (rho : env_s) (x : ident) : Prop := exists v, rho x = Some (VF v).
Lemma fdef_get : forall rho x, fdef rho x -> rho x = Some (VF (get rho x)).
Proof. intros rho x [v E]. unfold get. rewrite E. reflexivity. Qed.
Lemma to_lqc_ids : forall e q rho v, to_lqc e = Some q -> sem rho e = Some (VF v) -> Forall (fdef rho) (fids q).
Proof.
  induction e using zexp_ind'; intros q rho v D E; cbn [to_lqc] in D; try discriminate D.
  - injection D as <-. constructor.
  - destruct k; try discriminate D. injection D as <-. cbn in E. repeat constructor. exists v. exact E.
  - cbn [sem] in E. destruct (sem rho e1) as [[x| |]|] eqn:X; try discriminate E. destruct (sem rho e2) as [[y| |]|] eqn:Y; try discriminate E.
    assert (G : forall a b, to_lqc e1 = Some a -> to_lqc e2 = Some b -> (forall z, In z (fids a) -> fdef rho z) /\ (forall z, In z (fids b) -> fdef rho z)).
    { intros a b A B. split; intros z Hz; [pose proof (IHe1 a rho x A X) as Q|pose proof (IHe2 b rho y B Y) as Q]; rewrite Forall_forall in Q; auto. }
    unfold fids in *. destruct op; try discriminate D; ob D; ob D; destruct (G _ _ eq_refl eq_refl) as [G1 G2]; apply Forall_forall; intros z Hz.
    + injection D as <-. cbn [lqc_add lql lqq] in Hz. rewrite map_app, flat_map_app, !in_app_iff in Hz. destruct Hz as [[Hz|Hz]|[Hz|Hz]]; [apply G1|apply G2|apply G1|apply G2]; apply in_or_app; auto.
    + injection D as <-. cbn [lqc_sub lql lqq] in Hz. rewrite map_app, flat_map_app, !in_app_iff, map_map in Hz. destruct Hz as [[Hz|Hz]|[Hz|Hz]]; [apply G1|apply G2|apply G1|apply G2]; apply in_or_app; auto.
      right. apply in_flat_map in Hz as [t [T1 T2]]. apply in_map_iff in T1 as [u [<- T1]]. apply in_flat_map. exists u. split; auto.
    + unfold lqc_mul in D. destruct (negb _); [discriminate D|]. injection D as <-. cbn [lql lqq] in Hz. rewrite map_app, !flat_map_app, !in_app_iff, !map_map in Hz.
      destruct Hz as [[Hz|Hz]|[Hz|[Hz|Hz]]].
      * apply G1, in_or_app. left. exact Hz.
      * apply G2, in_or_app. left. exact Hz.
      * apply G1, in_or_app. right. apply in_flat_map in Hz as [t [T1 T2]]. apply in_map_iff in T1 as [u [<- T1]]. apply in_flat_map. exists u. split; auto.
      * apply G2, in_or_app. right. apply in_flat_map in Hz as [t [T1 T2]]. apply in_map_iff in T1 as [u [<- T1]]. apply in_flat_map. exists u. split; auto.
      * apply in_flat_map in Hz as [t [T1 T2]]. apply in_flat_map in T1 as [u [U1 U2]]. apply in_map_iff in U2 as [w [<- W]]. cbn [fst snd] in T2. destruct T2 as [<-|[<-|[]]]; [apply G1|apply G2]; apply in_or_app; left; apply in_map; auto.
Qed.
Lemma lin_fold_sem : forall rho l e v, sem rho e = Some (VF v) -> Forall (fun t => fdef rho (snd t)) l ->
  sem rho (fold_left (fun acc t => ZFBin FAdd acc (ZFBin FMul (ZFVal (fst t)) (ZId KF (snd t)))) l e) = Some (VF (fadd v (lval rho l))).
Proof.
  induction l as [|t l IH]; intros e v E H; cbn [fold_left]; [rewrite E; do 2 f_equal; cbn; ring|]. inversion H as [|? ? Ht Hl]; subst.
  rewrite (IH _ (fadd v (fmul (fst t) (get rho (snd t))))); [do 2 f_equal; rewrite lval_cons; ring| |exact Hl].
  cbn [sem]. rewrite E, (fdef_get _ _ Ht). reflexivity.
Qed.
Lemma lin_exp_sem : forall rho k l, Forall (fun t => fdef rho (snd t)) l -> sem rho (lin_exp k l) = Some (VF (fadd k (lval rho l))).
Proof. intros rho k l H. unfold lin_exp. cbn [sem]. rewrite (lin_fold_sem rho l (ZFVal f0) f0 eq_refl H). cbn [sem_fop]. do 2 f_equal. ring. Qed.
Lemma add_fold_sem : forall rho ts vs e v, sem rho e = Some (VF v) -> Forall2 (fun t u => sem rho t = Some (VF u)) ts vs ->
  sem rho (fold_left (fun acc x => ZFBin FAdd acc x) ts e) = Some (VF (fold_left fadd vs v)).
Proof.
  intros rho ts vs e v E H. revert e v E. induction H as [|t u ts vs Ht H IH]; intros e v E; cbn [fold_left]; [exact E|]. apply IH. cbn [sem]. rewrite E, Ht. reflexivity.
Qed.
Lemma fold_fadd : forall vs v, fold_left fadd vs v = fadd v (fold_right fadd f0 vs).
Proof. induction vs as [|u vs IH]; intros v; cbn [fold_left fold_right]; [ring|]. rewrite IH. ring. Qed.
Lemma quad_exp_sem : forall rho qs e, Forall (fun t => fdef rho (snd (fst t)) /\ fdef rho (snd t)) qs -> quad_exp qs = Some e -> sem rho e = Some (VF (fsub f0 (qval rho qs))).
Proof.
  intros rho qs e H E. destruct qs as [|[[c a] b] [|[[c2 a2] b2] qs]].
  - injection E as <-. rewrite qval_nil. cbn [sem]. do 2 f_equal; ring.
  - injection E as <-. inversion H as [|? ? [Ha Hb] _]; subst. cbn [fst snd] in *. cbn [sem]. rewrite (fdef_get _ _ Ha), (fdef_get _ _ Hb). cbn [sem_fop]. do 2 f_equal. rewrite qval_cons, qval_nil. cbn [fst snd]. ring.
  - set (Q := (c, a, b) :: (c2, a2, b2) :: qs) in *. unfold quad_exp in E. change (obind (common_factor Q) (fun f => obind (mapO (other_factor f) Q) (fun ts => Some (ZFBin FMul (fold_left (fun acc e => ZFBin FAdd acc e) ts (ZFVal f0)) (ZId KF f)))) = Some e) in E.
    ob E. rename i into f. ob E. injection E as <-. clear E0. rename l into ts.
    assert (Hne : Q <> []) by discriminate. clearbody Q.
    assert (M : Forall2 (fun t u => sem rho t = Some (VF u)) ts (map (fun t => fmul (fsub f0 (fst (fst t))) (if f =? snd (fst t) then get rho (snd t) else get rho (snd (fst t)))) Q) /\
                fmul (fold_right fadd f0 (map (fun t => fmul (fsub f0 (fst (fst t))) (if f =? snd (fst t) then get rho (snd t) else get rho (snd (fst t)))) Q)) (get rho f) = fsub f0 (qval rho Q) /\
                (Q <> [] -> fdef rho f)).
    { clear Hne. revert ts E1. induction H as [|[[k x] y] Q [Hx Hy] HQ IH]; intros ts E.
      - injection E as <-. split; [constructor|]. split; [cbn; ring|congruence].
      - change (obind (other_factor f (k, x, y)) (fun b => obind (mapO (other_factor f) Q) (fun s => Some (b :: s))) = Some ts) in E. ob E. ob E. injection E as <-. destruct (IH _ eq_refl) as [I1 [I2 _]]. cbn [fst snd map] in *.
        unfold other_factor in E0. destruct (Z.eqb_spec f x) as [->|Nx].
        + cbn [obind] in E0. injection E0 as <-. split; [constructor; [cbn [sem]; rewrite (fdef_get _ _ Hy); reflexivity|exact I1]|]. split; [|auto].
          cbn [fold_right]. rewrite qval_cons. cbn [fst snd]. replace (fsub f0 (fadd (fmul (fmul k (get rho x)) (get rho y)) (qval rho Q))) with (fadd (fsub f0 (fmul (fmul k (get rho x)) (get rho y))) (fsub f0 (qval rho Q))) by ring. rewrite <- I2. ring.
        + destruct (Z.eqb_spec f y) as [->|Ny]; [|discriminate E0]. cbn [obind] in E0. injection E0 as <-. split; [constructor; [cbn [sem]; rewrite (fdef_get _ _ Hx); reflexivity|exact I1]|]. split; [|auto].
          cbn [fold_right]. rewrite qval_cons. cbn [fst snd]. replace (fsub f0 (fadd (fmul (fmul k (get rho x)) (get rho y)) (qval rho Q))) with (fadd (fsub f0 (fmul (fmul k (get rho x)) (get rho y))) (fsub f0 (qval rho Q))) by ring. rewrite <- I2. ring. }
    destruct M as [M1 [M2 M3]]. cbn [sem]. rewrite (add_fold_sem rho ts _ (ZFVal f0) f0 eq_refl M1), (fdef_get _ _ (M3 Hne)). cbn [sem_fop]. do 2 f_equal. rewrite fold_fadd, <- M2. ring.
Qed.
(* the propagator on polynomial expressions *)
Fixpoint poly (e : zexp) : Prop :=
  match e with
  | ZFVal _ => True
  | ZId k _ => k = KF
  | ZFBin op l r => op <> FDiv /\ poly l /\ poly r
  | _ => False
  end.
Lemma poly_ty : forall e, poly e -> has_ty (fun _ => Some PF_) e PF_.
Proof. induction e using zexp_ind'; intros H0; cbn [poly] in H0; try contradiction; cbn [has_ty]; auto. - subst k. split; auto. split; auto. exact I. - destruct H0 as [_ [A B]]. auto. Qed.
Lemma prop_poly : forall e rho v, poly e -> sem rho e = Some (VF v) -> exists e', prop (fun _ => None) e = Some e' /\ sem rho e' = Some (VF v).
Proof.
  induction e using zexp_ind'; intros rho v P E; cbn [poly] in P; try contradiction.
  - exists (ZFVal c). split; [reflexivity|exact E].
  - exists (ZId k x). split; [reflexivity|exact E].
  - destruct P as [N [P1 P2]]. cbn [sem] in E. destruct (sem rho e1) as [[x| |]|] eqn:X; try discriminate E. destruct (sem rho e2) as [[y| |]|] eqn:Y; try discriminate E.
    destruct (sem_fop op x y) as [z|] eqn:Z; [|discriminate E]. injection E as <-. destruct (IHe1 rho x P1 X) as [a [A1 A2]]. destruct (IHe2 rho y P2 Y) as [b [B1 B2]].
    cbn [prop]. rewrite A1, B1. cbn [obind]. eapply pfbin_ok; eauto.
Qed.
Lemma poly_lin : forall l e, poly e -> poly (fold_left (fun acc t => ZFBin FAdd acc (ZFBin FMul (ZFVal (fst t)) (ZId KF (snd t)))) l e).
Proof. induction l as [|t l IH]; intros e H; cbn [fold_left]; auto. apply IH. cbn [poly]. repeat split; auto; discriminate. Qed.
Lemma poly_quad : forall qs e, quad_exp qs = Some e -> poly e.
Proof.
  intros qs e E. destruct qs as [|[[c a] b] [|[[c2 a2] b2] qs]].
  - injection E as <-. exact I.
  - injection E as <-. cbn [poly]. repeat split; auto; discriminate.
  - set (Q := (c, a, b) :: (c2, a2, b2) :: qs) in *. unfold quad_exp in E. change (obind (common_factor Q) (fun f => obind (mapO (other_factor f) Q) (fun ts => Some (ZFBin FMul (fold_left (fun acc e => ZFBin FAdd acc e) ts (ZFVal f0)) (ZId KF f)))) = Some e) in E.
    ob E. ob E. injection E as <-. cbn [poly]. split; [discriminate|]. split; [|reflexivity]. clear E0.
    assert (P : Forall poly l).
    { clearbody Q. revert l E1. induction Q as [|[[k x] y] Q IH]; intros l E; [injection E as <-; constructor|].
      change (obind (other_factor i (k, x, y)) (fun b => obind (mapO (other_factor i) Q) (fun s => Some (b :: s))) = Some l) in E. ob E. ob E. injection E as <-. constructor; [|auto].
      unfold other_factor in E0. destruct (i =? x); [injection E0 as <-; cbn [poly]; repeat split; auto; discriminate|]. destruct (i =? y); [injection E0 as <-; cbn [poly]; repeat split; auto; discriminate|discriminate E0]. }
    clear - P. assert (G : forall e, poly e -> poly (fold_left (fun acc x => ZFBin FAdd acc x) l e)); [|apply G; exact I].
    induction P as [|t ts Ht _ IH]; intros e He; cbn [fold_left]; auto. apply IH. cbn [poly]. repeat split; auto; discriminate.
Qed.
Lemma sub_zero : forall x y : F, fadd x y = f0 <-> x = fsub f0 y.
Proof. intros x y. split; [intros H; replace x with (fsub (fadd x y) y) by ring; rewrite H; reflexivity|intros ->; ring]. Qed.
Lemma classify_cases : forall l r q l1 r1, classify l r = (q, l1, r1) -> (l1 = l /\ r1 = r) \/ (l1 = r /\ r1 = l).
Proof.
  intros l r q l1 r1 H. unfold classify in H. destruct (_ && _); [injection H as <- <- <-; auto|]. destruct (is_mult l) as [[a b]|]; [destruct (is_linear r)|]; try (injection H as <- <- <-; auto; fail);
    (destruct (is_mult r) as [[a' b']|]; [destruct (is_linear l)|]; injection H as <- <- <-; auto).
Qed.
Theorem transform_ok : forall l r dl dr l' r' rho x y, degree l = Some dl -> degree r = Some dr -> (dl <= 2)%nat -> (dr <= 2)%nat ->
  transform l r = Some (l', r') -> sem rho l = Some (VF x) -> sem rho r = Some (VF y) ->
  exists x' y', sem rho l' = Some (VF x') /\ sem rho r' = Some (VF y') /\ (x' = y' <-> x = y).
Proof.
  intros l r dl dr l' r' rho x y D1 D2 H1 H2 T X Y. unfold transform in T. destruct (classify l r) as [[q l1] r1] eqn:C.
  assert (K : exists x1 y1 d1 d2, sem rho l1 = Some (VF x1) /\ sem rho r1 = Some (VF y1) /\ (x1 = y1 <-> x = y) /\ degree l1 = Some d1 /\ degree r1 = Some d2 /\ (d1 <= 2)%nat /\ (d2 <= 2)%nat).
  { apply classify_cases in C as [[-> ->]|[-> ->]]; [exists x, y, dl, dr|exists y, x, dr, dl]; repeat split; auto. }
  destruct K as [x1 [y1 [d1 [d2 [X1 [Y1 [Eq [E1 [E2 [L1 L2]]]]]]]]]]. destruct q.
  - injection T as <- <-. exists x1, y1. auto.
  - assert (Dg : degree (ZFBin FSub l1 r1) = Some (Nat.max d1 d2)) by (cbn [degree]; rewrite E1, E2; reflexivity).
    destruct (to_lqc_ok _ _ Dg ltac:(lia)) as [q [Q1 [_ Q2]]]. rewrite Q1 in T. cbn [obind] in T.
    assert (Sv : sem rho (ZFBin FSub l1 r1) = Some (VF (fsub x1 y1))) by (cbn [sem]; rewrite X1, Y1; reflexivity).
    pose proof (to_lqc_ids _ _ _ _ Q1 Sv) as Ids. pose proof (Q2 rho _ Sv) as V. unfold fids in Ids. apply Forall_app in Ids as [I1 I2].
    assert (J1 : Forall (fun t => fdef rho (snd t)) (lql q)) by (rewrite Forall_map in I1; exact I1).
    assert (J2 : Forall (fun t => fdef rho (snd (fst t)) /\ fdef rho (snd t)) (lqq q)).
    { rewrite Forall_forall in *. intros t Ht. split; apply I2, in_flat_map; exists t; (split; [exact Ht|]); [left|right; left]; reflexivity. }
    ob T. pose proof (quad_exp_sem rho _ _ J2 E) as SR. pose proof (poly_quad _ _ E) as PR.
    destruct (prop_poly (lin_exp (lqk q) (lql q)) rho _ ltac:(unfold lin_exp; cbn [poly]; split; [discriminate|split; [exact I|apply poly_lin; exact I]]) (lin_exp_sem rho (lqk q) (lql q) J1)) as [l2 [P1 P2]].
    destruct (prop_poly z rho _ PR SR) as [r2 [R1 R2]]. rewrite P1, R1 in T. cbn [obind] in T. injection T as <- <-. eexists _, _. split; [exact P2|]. split; [exact R2|].
    rewrite <- Eq, <- sub_zero. unfold lqval in V. replace (fadd (fadd (lqk q) (lval rho (lql q))) (qval rho (lqq q))) with (fsub x1 y1) by (rewrite <- V; ring).
    split; [intros Z0; replace x1 with (fadd (fsub x1 y1) y1) by ring; rewrite Z0; ring|intros ->; ring].
Qed.
End Asm.
