(** Correctness of the flattening of expressions. *)
From Coq Require Import ZArith Znumtheory NArith List Bool Lia Field.
From Verif Require Import PField SMap IR IRSpec Interp Bits Flat FlatProofs Zir Codegen CgBase CgGadgets.
Import ListNotations.
Open Scope Z_scope.

Section Static.
Context {PF : PrimeField}.

(** ** What the code generator expects of its input (established by semantic analysis and by the uint optimiser) *)
Definition ann_ok (a : ann) : Prop :=
  (1 <= uw a)%nat /\ (2 * uw a + 3 <= required_bits)%nat /\ fval (umax a) < pow2 (required_bits - 1).
Definition redT (a : ann) : Prop := ured a = SRTrue.
(** bounds on the result of a binary operation *)
Definition ubin_ok (a : ann) (op : uop) (al ar : ann) : Prop :=
  match op with
  | UAdd => ubound al + ubound ar <= fval (umax a)
  | USub => ubound al + pow2 (Nat.max (fbits (umax ar)) (uw a)) <= fval (umax a)
  | UMul => ubound al * ubound ar <= fval (umax a)
  | UDiv | URem => redT al /\ redT ar /\ pow2 (uw a) - 1 <= fval (umax a)
  | UXor | UAnd | UOr => pow2 (uw a) - 1 <= fval (umax a)
  end.
(** an expression of kind [k'] where [k] is expected *)
Definition fits (k k' : kind) : Prop :=
  match k with
  | KU a => exists a', k' = KU a' /\ uw a' = uw a /\ ubound a' <= fval (umax a)
  | _ => k' = k
  end.
Definition kind_ok (k : kind) : Prop := match k with KU a => ann_ok a | _ => True end.

(** Operands of bitwise operators. Only the bits of such an operand are used, so for a shift there, which is always
    reduced, the recorded maximum needs not be a bound of the result; it is what the uint optimiser writes. *)
Definition opnd (P : zexp -> Prop) (l : zexp) : Prop :=
  match l with
  | ZShl b e k => ann_ok b /\ redT b /\ P e /\ exists ae, zkind e = KU ae /\ uw ae = uw b /\ redT ae /\
                  fval (umax b) = (fval (umax ae) * pow2 k) mod pow2 (uw b)
  | ZShr b e k => ann_ok b /\ redT b /\ P e /\ exists ae, zkind e = KU ae /\ uw ae = uw b /\ redT ae /\
                  fval (umax b) = fval (umax ae) mod pow2 (uw b) / pow2 k
  | _ => P l
  end.
Definition opw (op : uop) (P : zexp -> Prop) (l : zexp) : Prop := match op with UXor | UAnd | UOr => opnd P l | _ => P l end.
Fixpoint wt (G : tenv) (e : zexp) : Prop :=
  match e with
  | ZFVal _ | ZBVal _ => True
  | ZUVal a n => ann_ok a /\ 0 <= n < pow2 (uw a) /\ n <= fval (umax a)
  | ZId k x => kind_ok k /\ exists k', G x = Some k' /\ fits k k'
  | ZFBin _ l r => wt G l /\ wt G r /\ zkind l = KF /\ zkind r = KF
  | ZPow e _ => wt G e /\ zkind e = KF
  | ZCmp op l r =>
      wt G l /\ wt G r /\
      match op with
      | CFLt | CFLe | CFEq => zkind l = KF /\ zkind r = KF
      | CULt | CULe | CUEq => exists al ar, zkind l = KU al /\ zkind r = KU ar /\ uw al = uw ar /\ redT al /\ redT ar
      end
  | ZBBin _ l r => wt G l /\ wt G r /\ zkind l = KB /\ zkind r = KB
  | ZBNot e => wt G e /\ zkind e = KB
  | ZUBin a op l r =>
      ann_ok a /\ opw op (wt G) l /\ opw op (wt G) r /\
      exists al ar, zkind l = KU al /\ zkind r = KU ar /\ uw al = uw a /\ uw ar = uw a /\ ubin_ok a op al ar
  | ZUNot a e => ann_ok a /\ wt G e /\ (exists ae, zkind e = KU ae /\ uw ae = uw a) /\ pow2 (uw a) - 1 <= fval (umax a)
  | ZShl a e k => ann_ok a /\ wt G e /\ exists ae, zkind e = KU ae /\ uw ae = uw a /\
                  Z.min (ubound ae * pow2 k) (pow2 (uw a) - pow2 (Nat.min k (uw a))) <= fval (umax a)
  | ZShr a e k => ann_ok a /\ wt G e /\ exists ae, zkind e = KU ae /\ uw ae = uw a /\ ubound ae / pow2 k <= fval (umax a)
  | ZCond k c x y => kind_ok k /\ wt G c /\ wt G x /\ wt G y /\ zkind c = KB /\ fits k (zkind x) /\ fits k (zkind y)
  | ZSel k es i =>
      kind_ok k /\ wt G i /\ (exists ai, zkind i = KU ai /\ uw ai = 32%nat /\ redT ai) /\ Z.of_nat (length es) <= pow2 32 /\
      (fix go (l : list zexp) : Prop := match l with [] => True | e :: r => wt G e /\ fits k (zkind e) /\ go r end) es
  end.

(** Field divisions have non-zero denominators. *)
Fixpoint divs (rho : env_s) (e : zexp) : Prop :=
  match e with
  | ZFVal _ | ZBVal _ | ZUVal _ _ | ZId _ _ => True
  | ZFBin op l r => divs rho l /\ divs rho r /\ match op with FDiv => sem rho r <> Some (VF f0) | _ => True end
  | ZCmp _ l r | ZBBin _ l r | ZUBin _ _ l r => divs rho l /\ divs rho r
  | ZPow e _ | ZBNot e | ZUNot _ e | ZShl _ e _ | ZShr _ e _ => divs rho e
  | ZCond _ c x y => divs rho c /\ divs rho x /\ divs rho y
  | ZSel _ es i => divs rho i /\ (fix go (l : list zexp) : Prop := match l with [] => True | e :: r => divs rho e /\ go r end) es
  end.

Fixpoint zsize (e : zexp) : nat :=
  match e with
  | ZFVal _ | ZBVal _ | ZUVal _ _ | ZId _ _ => 1
  | ZFBin _ l r | ZCmp _ l r | ZBBin _ l r | ZUBin _ _ l r => S (zsize l + zsize r)
  | ZPow e _ | ZBNot e | ZUNot _ e | ZShl _ e _ | ZShr _ e _ => S (zsize e)
  | ZCond _ c x y => S (zsize c + zsize x + zsize y)
  | ZSel _ es i => S (zsize i + (fix go (l : list zexp) : nat := match l with [] => 0 | e :: r => zsize e + go r end) es)
  end%nat.

(** induction where a binary operator also knows about its operands' shifted expressions *)
Definition sub_ (P : zexp -> Prop) (l : zexp) : Prop := match l with ZShl _ e _ | ZShr _ e _ => P e | _ => True end.
Lemma zexp_sub_ind : forall P : zexp -> Prop,
  (forall c, P (ZFVal c)) -> (forall b, P (ZBVal b)) -> (forall a n, P (ZUVal a n)) -> (forall k x, P (ZId k x)) ->
  (forall op l r, P l -> P r -> P (ZFBin op l r)) -> (forall e n, P e -> P (ZPow e n)) ->
  (forall op l r, P l -> P r -> P (ZCmp op l r)) -> (forall op l r, P l -> P r -> P (ZBBin op l r)) -> (forall e, P e -> P (ZBNot e)) ->
  (forall a op l r, P l -> P r -> sub_ P l -> sub_ P r -> P (ZUBin a op l r)) -> (forall a e, P e -> P (ZUNot a e)) ->
  (forall a e k, P e -> P (ZShl a e k)) -> (forall a e k, P e -> P (ZShr a e k)) ->
  (forall k c x y, P c -> P x -> P y -> P (ZCond k c x y)) -> (forall k es i, Forall P es -> P i -> P (ZSel k es i)) -> forall e, P e.
Proof.
  intros P H1 H2 H3 H4 H5 H6 H7 H8 H9 H10 H11 H12 H13 H14 H15 e. assert (X : P e /\ sub_ P e); [|apply X].
  induction e using zexp_ind'; cbn [sub_]; try tauto; try (split; [|exact I]); try (destruct IHe1, IHe2); try (destruct IHe3); try destruct IHe; eauto.
  apply H15; auto. eapply Forall_impl; [|exact H]. intros ? [A _]. exact A.
Qed.
Lemma opnd_impl : forall (P Q : zexp -> Prop) l, (P l -> Q l) -> sub_ (fun e => P e -> Q e) l -> opnd P l -> opnd Q l.
Proof. intros P Q l A B. destruct l; cbn [opnd sub_] in *; auto; tauto. Qed.
Lemma opw_impl : forall op (P Q : zexp -> Prop) l, (P l -> Q l) -> sub_ (fun e => P e -> Q e) l -> opw op P l -> opw op Q l.
Proof. intros op P Q l A B. destruct op; cbn [opw]; auto; apply opnd_impl; auto. Qed.
Lemma wt_kind : forall G e, wt G e -> kind_ok (zkind e).
Proof. intros G e H. destruct e; cbn in *; try exact I; tauto. Qed.

(** equality test on expressions *)
Lemma sr_eqb_eq : forall a b, sr_eqb a b = true -> a = b.
Proof. intros [] []; cbn; congruence. Qed.
Lemma ann_eqb_eq : forall a b, ann_eqb a b = true -> a = b.
Proof.
  intros [w1 m1 r1] [w2 m2 r2] H. unfold ann_eqb in H. cbn in H. apply andb_true_iff in H as [H H3].
  apply andb_true_iff in H as [H1 H2]. apply Nat.eqb_eq in H1. apply Feqb_eq in H2. apply sr_eqb_eq in H3. congruence.
Qed.
Lemma kind_eqb_eq : forall a b, kind_eqb a b = true -> a = b.
Proof. intros [] []; cbn; try congruence. intros H. apply ann_eqb_eq in H. congruence. Qed.
Lemma zexp_eqb_eq : forall a b, zexp_eqb a b = true -> a = b.
Proof.
  induction a using zexp_ind'; intros b0 Hb; destruct b0; try discriminate; cbn [zexp_eqb] in Hb;
    repeat (match goal with X : _ && _ = true |- _ => apply andb_true_iff in X as [? ?] end);
    repeat (match goal with
            | X : Feqb _ _ = true |- _ => apply Feqb_eq in X
            | X : eqb _ _ = true |- _ => apply eqb_prop in X
            | X : ann_eqb _ _ = true |- _ => apply ann_eqb_eq in X
            | X : kind_eqb _ _ = true |- _ => apply kind_eqb_eq in X
            | X : (_ =? _) = true |- _ => apply Z.eqb_eq in X
            | X : Nat.eqb _ _ = true |- _ => apply Nat.eqb_eq in X
            | X : N.eqb _ _ = true |- _ => apply N.eqb_eq in X
            | X : zexp_eqb _ _ = true, IH : forall b, zexp_eqb ?a b = true -> _ |- _ =>
                match type of X with zexp_eqb a _ = true => apply IH in X end
            end); try congruence.
  - destruct op, op0; cbn in *; try discriminate; congruence.
  - destruct op, op0; cbn in *; try discriminate; congruence.
  - destruct op, op0; cbn in *; try discriminate; congruence.
  - destruct op, op0; cbn in *; try discriminate; congruence.
  - f_equal; auto. revert es0 H1. induction H as [|x r Hx Hr IH]; intros [|y s] E; try discriminate; auto.
    apply andb_true_iff in E as [E1 E2]. f_equal; auto.
Qed.
End Static.

Section Expr.
Context {PF : PrimeField}.
Variable ext : Z -> list F -> option (list F).
Variable w : env.
Variable HON : Prop.
Variables (rho : env_s) (G : tenv).
Hypothesis Hreq : (3 <= required_bits)%nat.
Add Field Fcge : F_field_th.
Notation OK := (ok ext w HON rho G).
Notation EB := (EB w).

(** ** Representation of source values by flat results *)
Definition urel (a : ann) (n : Z) (u : fu) : Prop :=
  urep a n (feval w (getf u)) /\ (forall bits, getbits u = Some bits -> EB bits (bits_be (uw a) n)).
Definition ures (e : zexp) (v : val) (u : fu) : Prop :=
  match zkind e, v with
  | KF, VF x => feval w (getf u) = x /\ is_val (getf u) = is_lit e
  | KB, VB b => feval w (getf u) = f_of_bool b
  | KU a, VU n => urel a n u
  | _, _ => False
  end.
Definition upre (a : ann) (n : Z) (u : fu) : Prop :=
  (exists N, 0 <= N <= fval (umax a) /\ N mod pow2 (uw a) = n /\ feval w (getf u) = of_Z N) /\
  (forall bits, getbits u = Some bits -> EB bits (bits_be (uw a) n)).

Lemma ubound_le : forall a, ubound a <= fval (umax a).
Proof. clear Hreq. intros a. unfold ubound. destruct (ured a); lia. Qed.
Lemma urep_range : forall a n x, urep a n x -> 0 <= n < pow2 (uw a).
Proof. intros a n x [N [_ [_ [<- _]]]]. apply Z.mod_pos_bound, pow2_pos. Qed.
Lemma urep_red : forall a n x, redT a -> urep a n x -> x = of_Z n /\ fval x = n /\ 0 <= n < pow2 (uw a).
Proof.
  intros a n x Hr Hu. pose proof (urep_range _ _ _ Hu) as Hn. destruct Hu as [N [H1 [H2 [H3 ->]]]].
  unfold ubound in H1. rewrite Hr in H1. rewrite Z.mod_small in H3 by lia. subst N.
  split; auto. split; auto. apply fval_of_Z_small. lia.
Qed.
Lemma urel_upre : forall a a' n u, uw a' = uw a -> ubound a' <= fval (umax a) -> urel a' n u -> upre a n u.
Proof.
  intros a a' n u Hw Hb [[N [H1 [H2 [H3 H4]]]] Hbits]. rewrite Hw in *. split; auto. exists N. repeat split; auto; lia.
Qed.
Lemma upre_bits : forall a n zs, EB zs (bits_be (uw a) n) -> 0 <= n < pow2 (uw a) -> n <= fval (umax a) -> upre a n (UB zs).
Proof.
  intros a n zs Hz Hn Hm. split.
  - exists n. split; [lia|]. split; [apply Z.mod_small; auto|]. cbn [getf]. rewrite (ffb_bits w _ _ Hz), bv_bits_be, Z.mod_small by lia. auto.
  - cbn [getbits]. intros bits E. injection E as <-. auto.
Qed.

(** l.1869-1895 *)
Lemma ok_finish : forall (C : Prop) a n u, ann_ok a -> upre a n u -> OK C (finish_uint a u) (urel a n).
Proof.
  intros C a n u [Hw1 [Hw2 Hmax]] [[N [HN [HNn HNf]]] Hbits]. unfold finish_uint.
  pose proof (fval_range (umax a)) as Hmr. pose proof (fbits_spec (umax a)) as Hfb. pose proof (pow2_pos (uw a)) as Hpw.
  assert (Hfr : (fbits (umax a) < required_bits)%nat).
  { assert (fbits (umax a) <= required_bits - 1)%nat by (apply fbits_le; auto; lia). lia. }
  assert (Hnr : 0 <= n < pow2 (uw a)) by (rewrite <- HNn; apply Z.mod_pos_bound; auto).
  assert (Hle : n <= N) by (rewrite <- HNn; apply Z.mod_le; lia).
  assert (HNv : fval (feval w (getf u)) = N) by (rewrite HNf; apply fval_of_Z_small; lia).
  destruct (ured a) eqn:Er; [apply ok_fail| |].
  - eapply ok_bind.
    + apply (ok_weaken ext w HON rho G C _ _ (fun bits => EB bits (bits_be (uw a) n)) (fun bits => EB bits (bits_be (uw a) n))); [|auto].
      assert (Hgb : OK C (get_bits (UF (getf u) None) (fbits (umax a)) (uw a) eSum) (fun bits => EB bits (bits_be (uw a) n))).
      { eapply ok_weaken; [apply ok_get_bits; auto|].
        - intros _ _. rewrite HNv. pose proof (pow2_le (fbits (umax a)) (Nat.max (fbits (umax a)) (uw a)) ltac:(lia)). lia.
        - intros bits [Hlen [bs [Hbs [_ [_ [Hv _]]]]]]. pose proof (bv_range bs) as Hbr. pose proof (EB_length w _ _ Hbs) as Hbl.
          rewrite <- Hbl, Hlen in Hbr. pose proof (pow2_small_lt_pp (uw a) ltac:(lia)). destruct Hv as [E _]; [lia|].
          rewrite HNv, Hlen, HNn in E. rewrite <- E, <- Hlen, Hbl, bits_be_bv. auto. }
      assert (Hpass : forall bits, EB bits (bits_be (uw a) n) ->
        OK C (assertM (Nat.leb (fbits (umax a)) required_bits) ;;; assertM (Nat.leb (uw a) required_bits) ;;; ret bits) (fun bits => EB bits (bits_be (uw a) n))).
      { intros bits Hb. eapply ok_bind; [apply ok_assert|]. intros ? _. eapply ok_bind; [apply ok_assert|]. intros ? _. apply ok_ret. auto. }
      destruct u as [f [bits|]|bits]; cbn [getf] in Hgb.
      * destruct f; try exact Hgb; apply Hpass; auto.
      * exact Hgb.
      * apply Hpass; auto.
    + intros bits Hb. cbn beta in Hb. apply ok_ret. split; [|cbn [getbits]; intros b E; injection E as <-; auto].
      exists n. unfold ubound. rewrite Er. cbn [getf]. split; [lia|]. split; [lia|]. split; [apply Z.mod_small; auto|].
      destruct (Nat.ltb_spec (uw a) (fbits (umax a))).
      * rewrite (red_field_bits w _ _ _ Hb), bv_bits_be, Z.mod_small by auto. cbn [feval]. ring.
      * pose proof (pow2_le (fbits (umax a)) (uw a) ltac:(lia)). rewrite HNf. f_equal. rewrite <- HNn. symmetry. apply Z.mod_small. lia.
  - apply ok_ret. split; auto. exists N. unfold ubound. rewrite Er. split; [lia|]. split; [lia|]. auto.
Qed.

Definition good (e : zexp) : Prop := forall C : Prop,
  wt G e -> divs rho e -> (HON -> C -> sem rho e <> None) ->
  OK C (flat e) (fun u => exists v, sem rho e = Some v /\ ures e v u).

Lemma ures_KF : forall e v u, zkind e = KF -> ures e v u -> exists x, v = VF x /\ feval w (getf u) = x /\ is_val (getf u) = is_lit e.
Proof. intros e v u E H. unfold ures in H. rewrite E in H. destruct v; try contradiction. eauto. Qed.
Lemma ures_KB : forall e v u, zkind e = KB -> ures e v u -> exists b, v = VB b /\ feval w (getf u) = f_of_bool b.
Proof. intros e v u E H. unfold ures in H. rewrite E in H. destruct v; try contradiction. eauto. Qed.
Lemma ures_KU : forall e v u a, zkind e = KU a -> ures e v u -> exists n, v = VU n /\ urel a n u.
Proof. intros e v u a E H. unfold ures in H. rewrite E in H. destruct v; try contradiction. eauto. Qed.

(** l.1237-1279, 1590-1740: which of the three XOR translations applies *)
Definition xor_view (l r : zexp) : option (bool * (zexp * zexp * zexp)) :=
  match l, r with
  | ZUBin _ UAnd ea eb, ZUBin _ UAnd (ZUNot _ ea') ec => if zexp_eqb ea' ea then Some (true, (ea, eb, ec)) else None
  | ZUBin _ UXor (ZUBin _ UAnd ea eb) (ZUBin _ UAnd eaa ec), ZUBin _ UAnd ebb ecc =>
      if zexp_eqb eaa ea && zexp_eqb ebb eb && zexp_eqb ecc ec then Some (false, (ea, eb, ec)) else None
  | _, _ => None
  end.
Lemma flat_xor0 : forall a l r, flat (ZUBin a UXor l r) =
  (res <- (let default :=
                x <- flat l ;; y <- flat r ;; bx <- bitsM x ;; by_ <- bitsM y ;;
                zs <- zipM xor_bit bx by_ ;; ret (UB zs) in
                  match l, r with
                  | ZUBin _ UAnd ea eb, ZUBin _ UAnd (ZUNot _ ea') ec =>
                      if zexp_eqb ea' ea then
                        x <- flat ea ;; y <- flat eb ;; z <- flat ec ;;
                        bx <- bitsM x ;; by_ <- bitsM y ;; bz <- bitsM z ;;
                        zs <- zip3M ch_bit bx by_ bz ;; ret (UB zs)
                      else default
                  | ZUBin _ UXor (ZUBin _ UAnd ea eb) (ZUBin _ UAnd eaa ec), ZUBin _ UAnd ebb ecc =>
                      if zexp_eqb eaa ea && zexp_eqb ebb eb && zexp_eqb ecc ec then
                        x <- flat ea ;; y <- flat eb ;; z <- flat ec ;;
                        bx <- bitsM x ;; by_ <- bitsM y ;; bz <- bitsM z ;;
                        zs <- zip3M maj_bit bx by_ bz ;; ret (UB zs)
                      else default
                  | _, _ => default
                  end) ;;
      finish_uint a res).
Proof. reflexivity. Qed.
Lemma flat_xor : forall a l r, flat (ZUBin a UXor l r) =
  (res <- match xor_view l r with
          | None => x <- flat l ;; y <- flat r ;; bx <- bitsM x ;; by_ <- bitsM y ;; zs <- zipM xor_bit bx by_ ;; ret (UB zs)
          | Some (ch, (ea, eb, ec)) =>
              x <- flat ea ;; y <- flat eb ;; z <- flat ec ;; bx <- bitsM x ;; by_ <- bitsM y ;; bz <- bitsM z ;;
              zs <- zip3M (if ch then ch_bit else maj_bit) bx by_ bz ;; ret (UB zs)
          end ;; finish_uint a res).
Proof.
  intros a l r. rewrite flat_xor0. generalize (@flat PF). generalize finish_uint. intros fin f. cbv zeta.
  destruct l as [| | | | | | | | |al opl l1 l2| | | | | ]; try reflexivity.
  destruct opl; try reflexivity.
  - destruct l1 as [| | | | | | | | |a1 op1 l11 l12| | | | | ]; try reflexivity.
    destruct op1; try reflexivity. destruct l2 as [| | | | | | | | |a2 op2 l21 l22| | | | | ]; try reflexivity.
    destruct op2; try reflexivity. destruct r as [| | | | | | | | |ar opr r1 r2| | | | | ]; try reflexivity.
    destruct opr; try reflexivity. unfold xor_view.
    match goal with |- context [if ?c then _ else _] => destruct c end; reflexivity.
  - destruct r as [| | | | | | | | |ar opr r1 r2| | | | | ]; try reflexivity.
    destruct opr; try reflexivity. destruct r1; try reflexivity. unfold xor_view.
    match goal with |- context [if ?c then _ else _] => destruct c end; reflexivity.
Qed.

(** ** Case by case *)
Ltac subdef HC := let h := fresh in let c := fresh in let X := fresh in let E := fresh in
  intros h c E; pose proof (HC h c) as X; apply X; cbn [sem]; rewrite E;
  repeat (match goal with |- match ?t with _ => _ end = None => destruct t end); reflexivity.

Lemma good_FVal : forall c, good (ZFVal c).
Proof. intros c C _ _ _. apply ok_ret. exists (VF c). cbn. auto. Qed.
Lemma good_BVal : forall b, good (ZBVal b).
Proof. intros c C _ _ _. apply ok_ret. exists (VB c). cbn. auto. Qed.
Lemma good_UVal : forall a n, good (ZUVal a n).
Proof.
  intros a n C [Ha [Hn Hm]] _ _. cbn [flat]. eapply ok_weaken; [apply (ok_finish C a n); auto|].
  - split; [exists n; split; [lia|]; split; [apply Z.mod_small; auto|reflexivity]|]. cbn. discriminate.
  - cbn beta. intros u Hu. exists (VU n). cbn. auto.
Qed.
Lemma good_Id : forall k x, good (ZId k x).
Proof.
  intros k x C [Hk [k' [HG Hf]]] _ _. destruct k as [| |a]; cbn [fits] in Hf; cbn [flat].
  - subst k'. eapply ok_bind; [apply (ok_get_lay ext w HON rho G C x _ HG)|]. intros v [y [Hy Hv]].
    destruct y; try contradiction. apply ok_ret. exists (VF x0). cbn. auto.
  - subst k'. eapply ok_bind; [apply (ok_get_lay ext w HON rho G C x _ HG)|]. intros v [y [Hy Hv]].
    destruct y; try contradiction. apply ok_ret. exists (VB b). cbn. auto.
  - destruct Hf as [a' [-> [Hw Hb]]]. cbn [kind_ok] in Hk.
    eapply ok_bind; [apply (ok_get_lay ext w HON rho G C x _ HG)|]. intros v [y [Hy Hv]].
    destruct y as [| |n]; try contradiction. cbn [vrel] in Hv.
    eapply ok_bind; [apply ok_cget|]. intros hit Hhit.
    assert (HP : forall bits, (forall b, bits = Some b -> EB b (bits_be (uw a) n)) ->
      OK C (finish_uint a (UF (XId v) bits)) (fun u => exists v0, sem rho (ZId (KU a) x) = Some v0 /\ ures (ZId (KU a) x) v0 u)).
    { intros bits Hbits. eapply ok_weaken; [apply (ok_finish C a n); auto|].
      - apply (urel_upre a a'); auto. split; [exact Hv|]. cbn [getbits]. rewrite Hw. auto.
      - cbn beta. intros u Hu. exists (VU n). cbn. auto. }
    destruct hit as [[bits ex]|]; [|apply HP; discriminate].
    eapply ok_bind; [apply ok_assert|]. intros ? Hl. apply Nat.eqb_eq in Hl. apply HP.
    intros b E. injection E as <-. destruct (Hhit _ _ eq_refl) as [bs [Hbs [_ [_ [Hval _]]]]].
    destruct Hv as [N [HN [HNp [HNn HNv]]]]. cbn [feval] in Hval.
    assert (HNf : fval (w v) = N) by (rewrite HNv; apply fval_of_Z_small; lia). rewrite HNf, Hl, <- Hw, HNn in Hval.
    pose proof (bv_range bs) as Hbr. pose proof (EB_length w _ _ Hbs) as Hbl. rewrite <- Hbl, Hl in Hbr.
    destruct Hk as [_ [Hk2 _]]. pose proof (pow2_small_lt_pp (uw a) ltac:(lia)). destruct Hval as [E _]; [lia|].
    rewrite <- E, <- Hl, Hbl, bits_be_bv. auto.
Qed.
Lemma good_FBin : forall op l r, good l -> good r -> good (ZFBin op l r).
Proof.
  intros op l r IHl IHr C [Wl [Wr [Kl Kr]]] [Dl [Dr Dz]] HC. cbn [flat].
  eapply ok_bind; [apply (IHl C Wl Dl); subdef HC|]. intros ul [vl [Sl Hl]]. apply (ures_KF _ _ _ Kl) in Hl as [a [-> [Ha _]]].
  eapply ok_bind; [apply (IHr C Wr Dr); subdef HC|]. intros ur [vr [Sr Hr]]. apply (ures_KF _ _ _ Kr) in Hr as [b [-> [Hb _]]].
  cbn [sem] in *. rewrite Sl, Sr in *. unfold ures. cbn [zkind is_lit].
  destruct op; cbn [sem_fop] in *.
  1,2,3: (eapply ok_bind; [apply ok_linearise|]; intros x [Hx _]; eapply ok_bind; [apply ok_linearise|]; intros y [Hy _];
     apply ok_ret; eexists; split; [reflexivity|]; cbn [feval getf is_val]; split; [congruence|reflexivity]).
  eapply ok_bind; [apply ok_newdef|]. intros x Hx. eapply ok_bind; [apply ok_newdef|]. intros y Hy.
  eapply ok_bind; [apply ok_fresh|]. intros v _. eapply ok_bind; [apply ok_dir|]. intros ? Hd. cbn [map exec_solver feval] in Hd.
  rewrite Hx, Hy, Ha, Hb in Hd.
  assert (Hnz : b <> f0) by congruence.
  destruct (Feqb_spec b f0) as [|_]; [contradiction|].
  eapply ok_bind; [apply ok_cond|].
  { intros h _. specialize (Hd h). injection Hd as Hd. cbn [feval]. rewrite <- Hd, Hx, Hy, Ha, Hb. field. auto. }
  intros ? H1. cbn [feval] in H1. rewrite Hx, Hy, Ha, Hb in H1. apply ok_ret. eexists; split; [reflexivity|]. cbn [feval getf is_val].
  split; [|reflexivity]. rewrite <- H1. field. auto.
Qed.
Lemma good_Pow : forall e n, good e -> good (ZPow e n).
Proof.
  intros e n IH C [W K] D HC. cbn [flat].
  eapply ok_bind; [apply (IH C W D); subdef HC|]. intros u [v [S Hu]]. apply (ures_KF _ _ _ K) in Hu as [a [-> [Ha _]]].
  eapply ok_bind; [apply ok_assert|]. intros tt0 _.
  pose proof (ok_pow ext w HON rho G Hreq C (getf u) n) as Hp.
  intros s res s' em Hi Er.
  assert (Hp' : OK C (bind (bind (pow_powers (getf u) (exp_bits n)) (fun ps => pow_fold one (exp_bits n) ps)) (fun r => ret (UF r None)))
     (fun u0 => exists v, sem rho (ZPow e n) = Some v /\ ures (ZPow e n) v u0)).
  { eapply ok_bind; [exact Hp|]. intros r [Hr1 Hr2]. apply ok_ret. cbn [sem]. rewrite S. eexists; split; [reflexivity|].
    unfold ures. cbn [zkind getf]. split; [rewrite Hr1, Ha; auto|]. rewrite Hr2. cbn [is_lit]. destruct n; auto. }
  apply (Hp' s res s' em Hi). unfold bind, ret in *.
  destruct (pow_powers (getf u) (exp_bits n) s) as [[[ps s1] o1]|]; [|discriminate].
  destruct (pow_fold one (exp_bits n) ps s1) as [[[r s2] o2]|]; [|discriminate].
  rewrite !app_nil_r in *. auto.
Qed.

Lemma safe_max_eq : safe_max = pow2 safe_width.
Proof. unfold safe_max, pow2, safe_width. f_equal. pose proof required_bits_pos. lia. Qed.
Lemma dyn_defined : forall l r ul ur a b,
  feval w (getf ul) = a -> feval w (getf ur) = b -> is_val (getf ul) = is_lit l -> is_val (getf ur) = is_lit r ->
  (fcmp_defined l r a b = true <-> dyn_ok w (getf ul) (getf ur)).
Proof.
  intros l r ul ur a b Ha Hb Il Ir. unfold fcmp_defined, dyn_ok. rewrite Il, Ir, Ha, Hb, safe_max_eq.
  destruct (is_lit l || is_lit r) eqn:E; cbn [orb]; [split; [intros _ X; discriminate|auto]|].
  rewrite andb_true_iff, !Z.ltb_lt. intuition.
Qed.
Lemma is_red_T : forall e a, zkind e = KU a -> is_red e = true -> redT a.
Proof. intros e a K H. unfold is_red in H. rewrite K in H. unfold redT. destruct (ured a); congruence. Qed.
Lemma good_Cmp : forall op l r, good l -> good r -> good (ZCmp op l r).
Proof.
  intros op l r IHl IHr C [Wl [Wr K]] [Dl Dr] HC.
  assert (IHl' : OK C (flat l) (fun u => exists v, sem rho l = Some v /\ ures l v u)) by (apply (IHl C Wl Dl); subdef HC).
  assert (IHr' : OK C (flat r) (fun u => exists v, sem rho r = Some v /\ ures r v u)) by (apply (IHr C Wr Dr); subdef HC).
  destruct op; cbn [flat].
  - destruct K as [Kl Kr].
    eapply ok_bind; [exact IHl'|]. intros ul [vl [Sl Hl]]. apply (ures_KF _ _ _ Kl) in Hl as [a [-> [Ha Il]]].
    eapply ok_bind; [exact IHr'|]. intros ur [vr [Sr Hr]]. apply (ures_KF _ _ _ Kr) in Hr as [b [-> [Hb Ir]]].
    pose proof (dyn_defined _ _ _ _ _ _ Ha Hb Il Ir) as Hdd. cbn [sem] in *. rewrite Sl, Sr in *.
    eapply ok_bind; [apply ok_field_lt; auto|].
    { intros h c. apply Hdd. specialize (HC h c). destruct (fcmp_defined l r a b); congruence. }
    intros z [Hdy Hz]. apply ok_ret. apply Hdd in Hdy. rewrite Hdy. eexists; split; [reflexivity|]. cbn. rewrite Hz, Ha, Hb. auto.
  - destruct K as [Kl Kr].
    eapply ok_bind; [exact IHl'|]. intros ul [vl [Sl Hl]]. apply (ures_KF _ _ _ Kl) in Hl as [a [-> [Ha Il]]].
    eapply ok_bind; [exact IHr'|]. intros ur [vr [Sr Hr]]. apply (ures_KF _ _ _ Kr) in Hr as [b [-> [Hb Ir]]].
    pose proof (dyn_defined _ _ _ _ _ _ Ha Hb Il Ir) as Hdd. cbn [sem] in *. rewrite Sl, Sr in *.
    eapply ok_bind; [apply ok_field_lt; auto|].
    { intros h c. apply Hdd. specialize (HC h c). destruct (fcmp_defined l r a b); congruence. }
    intros z [Hdy Hz]. apply Hdd in Hdy. rewrite Hdy in *.
    eapply ok_bind; [exact IHl'|]. intros ul2 [vl2 [Sl2 Hl2]]. apply (ures_KF _ _ _ Kl) in Hl2 as [a2 [-> [Ha2 _]]].
    eapply ok_bind; [exact IHr'|]. intros ur2 [vr2 [Sr2 Hr2]]. apply (ures_KF _ _ _ Kr) in Hr2 as [b2 [-> [Hb2 _]]].
    injection Sl2 as <-. injection Sr2 as <-.
    eapply ok_bind; [apply ok_eq_check; auto|]. intros q Hq. apply ok_ret. eexists; split; [reflexivity|].
    cbn [ures zkind getf feval]. unfold ures. cbn [zkind getf feval]. rewrite Hz, Hq, Ha, Hb, Ha2, Hb2. apply le_bool; auto.
  - destruct K as [Kl Kr].
    eapply ok_bind; [exact IHl'|]. intros ul [vl [Sl Hl]]. apply (ures_KF _ _ _ Kl) in Hl as [a [-> [Ha Il]]].
    eapply ok_bind; [exact IHr'|]. intros ur [vr [Sr Hr]]. apply (ures_KF _ _ _ Kr) in Hr as [b [-> [Hb Ir]]].
    cbn [sem] in *. rewrite Sl, Sr in *. eapply ok_bind; [apply ok_eq_check; auto|]. intros z Hz. apply ok_ret. eexists; split; [reflexivity|].
    unfold ures. cbn [zkind getf feval]. rewrite Hz, Ha, Hb. auto.
  - destruct K as [al [ar [Kl [Kr [Hw [Rl Rr]]]]]]. pose proof (wt_kind _ _ Wl) as Wk. rewrite Kl in Wk. destruct Wk as [_ [Wk _]].
    eapply ok_bind; [apply ok_assert|]. intros tt0 _.
    eapply ok_bind; [exact IHl'|]. intros ul [vl [Sl Hl]]. apply (ures_KU _ _ _ _ Kl) in Hl as [a [-> [Ha _]]].
    eapply ok_bind; [exact IHr'|]. intros ur [vr [Sr Hr]]. apply (ures_KU _ _ _ _ Kr) in Hr as [b [-> [Hb _]]].
    apply urep_red in Ha as [_ [Ha Har]]; auto. apply urep_red in Hb as [_ [Hb Hbr]]; auto.
    rewrite Kl. eapply ok_bind; [apply ok_lt_check; auto; [lia|]|].
    { intros _. rewrite Ha, Hb. rewrite <- Hw in Hbr. lia. }
    intros z Hz. apply ok_ret. cbn [sem]. rewrite Sl, Sr. eexists; split; [reflexivity|]. unfold ures. cbn [zkind getf]. rewrite Hz, Ha, Hb. auto.
  - destruct K as [al [ar [Kl [Kr [Hw [Rl Rr]]]]]]. pose proof (wt_kind _ _ Wl) as Wk. rewrite Kl in Wk. destruct Wk as [_ [Wk _]].
    eapply ok_bind; [apply ok_assert|]. intros tt0 _.
    eapply ok_bind; [exact IHl'|]. intros ul [vl [Sl Hl]]. apply (ures_KU _ _ _ _ Kl) in Hl as [a [-> [Ha _]]].
    eapply ok_bind; [exact IHr'|]. intros ur [vr [Sr Hr]]. apply (ures_KU _ _ _ _ Kr) in Hr as [b [-> [Hb _]]].
    apply urep_red in Ha as [_ [Ha Har]]; auto. apply urep_red in Hb as [_ [Hb Hbr]]; auto.
    rewrite Kl. eapply ok_bind; [apply ok_lt_check; auto; [lia|]|].
    { intros _. rewrite Ha, Hb. rewrite <- Hw in Hbr. lia. }
    intros z Hz.
    eapply ok_bind; [exact IHl'|]. intros ul2 [vl2 [Sl2 Hl2]]. apply (ures_KU _ _ _ _ Kl) in Hl2 as [a2 [-> [Ha2 _]]].
    eapply ok_bind; [exact IHr'|]. intros ur2 [vr2 [Sr2 Hr2]]. apply (ures_KU _ _ _ _ Kr) in Hr2 as [b2 [-> [Hb2 _]]].
    apply urep_red in Ha2 as [_ [Ha2 _]]; auto. apply urep_red in Hb2 as [_ [Hb2 _]]; auto.
    rewrite Sl in Sl2. rewrite Sr in Sr2. injection Sl2 as <-. injection Sr2 as <-.
    eapply ok_bind; [apply ok_eq_check; auto|]. intros q Hq. apply ok_ret. cbn [sem]. rewrite Sl, Sr. eexists; split; [reflexivity|].
    unfold ures. cbn [zkind getf feval]. rewrite Hz, Hq, Ha, Hb, Ha2, Hb2. apply le_bool; auto.
  - destruct K as [al [ar [Kl [Kr [Hw [Rl Rr]]]]]].
    eapply ok_bind; [apply ok_assert|]. intros tt0 _.
    eapply ok_bind; [exact IHl'|]. intros ul [vl [Sl Hl]]. apply (ures_KU _ _ _ _ Kl) in Hl as [a [-> [Ha _]]].
    eapply ok_bind; [exact IHr'|]. intros ur [vr [Sr Hr]]. apply (ures_KU _ _ _ _ Kr) in Hr as [b [-> [Hb _]]].
    apply urep_red in Ha as [_ [Ha Har]]; auto. apply urep_red in Hb as [_ [Hb Hbr]]; auto.
    eapply ok_bind; [apply ok_eq_check; auto|]. intros z Hz. apply ok_ret. cbn [sem]. rewrite Sl, Sr. eexists; split; [reflexivity|].
    unfold ures. cbn [zkind getf]. rewrite Hz, Ha, Hb. auto.
Qed.
Lemma good_BBin : forall op l r, good l -> good r -> good (ZBBin op l r).
Proof.
  intros op l r IHl IHr C [Wl [Wr [Kl Kr]]] [Dl Dr] HC. cbn [flat].
  eapply ok_bind; [apply (IHl C Wl Dl); subdef HC|]. intros ul [vl [Sl Hl]]. apply (ures_KB _ _ _ Kl) in Hl as [a [-> Ha]].
  eapply ok_bind; [apply (IHr C Wr Dr); subdef HC|]. intros ur [vr [Sr Hr]]. apply (ures_KB _ _ _ Kr) in Hr as [b [-> Hb]].
  cbn [sem]. rewrite Sl, Sr. destruct op; cbn [sem_bop].
  - eapply ok_bind; [apply ok_newdef|]. intros v Hv. apply ok_ret. eexists; split; [reflexivity|]. unfold ures. cbn [zkind getf feval one] in *.
    rewrite Hv, Ha, Hb. destruct a, b; cbn [eqb f_of_bool]; ring.
  - eapply ok_bind; [apply ok_assert|]. intros tt0 _. eapply ok_bind; [apply (ok_or_flat ext w HON rho G C _ _ _ _ Ha Hb)|]. intros z Hz.
    apply ok_ret. eexists; split; [reflexivity|]. unfold ures. cbn [zkind getf]. auto.
  - eapply ok_bind; [apply ok_assert|]. intros tt0 _. eapply ok_bind; [apply ok_newdef|]. intros v Hv. apply ok_ret.
    eexists; split; [reflexivity|]. unfold ures. cbn [zkind getf feval] in *. rewrite Hv, Ha, Hb. destruct a, b; cbn [andb f_of_bool]; ring.
Qed.
Lemma good_BNot : forall e, good e -> good (ZBNot e).
Proof.
  intros e IH C [W K] D HC. cbn [flat].
  eapply ok_bind; [apply (IH C W D); subdef HC|]. intros u [v [S Hu]]. apply (ures_KB _ _ _ K) in Hu as [a [-> Ha]].
  apply ok_ret. cbn [sem]. rewrite S. eexists; split; [reflexivity|]. unfold ures. cbn [zkind getf feval one]. rewrite Ha.
  destruct a; cbn [negb f_of_bool]; ring.
Qed.

(** bit lists *)
Lemma ok_bitsM : forall (C : Prop) a n u, urel a n u -> OK C (bitsM u) (fun bits => EB bits (bits_be (uw a) n)).
Proof. intros C a n u [_ H]. unfold bitsM. destruct (getbits u); [apply ok_ret; auto|apply ok_fail]. Qed.
Lemma not_bits : forall n x, 0 <= x < pow2 n -> map negb (bits_be n x) = bits_be n (pow2 n - 1 - x).
Proof.
  intros n x Hx. rewrite bits_be_not. rewrite <- (bits_be_mod n (Z.lnot x)), <- (bits_be_mod n (pow2 n - 1 - x)).
  f_equal. unfold Z.lnot. replace (pow2 n - 1 - x) with (Z.pred (- x) + 1 * pow2 n) by lia. rewrite Z.mod_add; auto.
  pose proof (pow2_pos n). lia.
Qed.
Lemma zip3_ch : forall n x y z, 0 <= x < pow2 n ->
  zip3 (fun a b c => xorb (a && b) (negb a && c)) (bits_be n x) (bits_be n y) (bits_be n z) =
  bits_be n (Z.lxor (Z.land x y) (Z.land (pow2 n - 1 - x) z)).
Proof.
  intros n x y z Hx.
  rewrite <- (zip2_bits Z.lxor xorb) by (intros; apply Z.lxor_spec).
  rewrite <- (zip2_bits Z.land andb n x y) by (intros; apply Z.land_spec).
  rewrite <- (zip2_bits Z.land andb n _ z) by (intros; apply Z.land_spec). rewrite <- not_bits by auto. clear Hx.
  induction n as [|n IH]; cbn [bits_be zip3 zip2 map]; auto. rewrite IH. auto.
Qed.
Lemma zip3_maj : forall n x y z,
  zip3 (fun a b c => xorb (xorb (a && b) (a && c)) (b && c)) (bits_be n x) (bits_be n y) (bits_be n z) =
  bits_be n (Z.lxor (Z.lxor (Z.land x y) (Z.land x z)) (Z.land y z)).
Proof.
  intros n x y z. induction n as [|n IH]; cbn [bits_be zip3]; auto. rewrite IH, !Z.lxor_spec, !Z.land_spec. auto.
Qed.
Lemma shl_bits : forall n k x, skipn k (bits_be n x) ++ repeat false (Nat.min k n) = bits_be n (x * pow2 k).
Proof.
  intros n k x. pose proof (pow2_pos n). pose proof (pow2_pos k). apply bv_inj.
  - rewrite app_length, skipn_length, repeat_length, !bits_be_length. lia.
  - rewrite bv_app, repeat_length, bv_repeat_false, bv_bits_be, Z.add_0_r.
    destruct (Nat.le_gt_cases k n) as [Hk|Hk].
    + rewrite bits_be_skipn, bv_bits_be by lia. replace (Nat.min k n) with k by lia.
      rewrite <- Z.mul_mod_distr_r by (pose proof (pow2_pos (n - k)); lia).
      rewrite <- pow2_add. repeat f_equal. lia.
    + rewrite skipn_all2 by (rewrite bits_be_length; lia). cbn [bv]. rewrite Z.mul_0_l. symmetry.
      replace k with (k - n + n)%nat by lia. rewrite pow2_add, Z.mul_assoc. apply Z.mod_mul. lia.
Qed.
Lemma shr_bits : forall n k x, 0 <= x < pow2 n ->
  repeat false (Nat.min k n) ++ firstn (n - Nat.min k n) (bits_be n x) = bits_be n (x / pow2 k).
Proof.
  intros n k x Hx. pose proof (pow2_pos n). pose proof (pow2_pos k). apply bv_inj.
  - rewrite app_length, firstn_length, repeat_length, !bits_be_length. lia.
  - rewrite bv_zeros_app, bv_firstn by (rewrite bits_be_length; lia). rewrite !bv_bits_be, bits_be_length.
    rewrite (Z.mod_small x) by auto. destruct (Nat.le_gt_cases k n) as [Hk|Hk].
    + replace (n - (n - Nat.min k n))%nat with k by lia. symmetry. apply Z.mod_small.
      split; [apply Z.div_pos; lia|]. apply Z.div_lt_upper_bound; auto. nia.
    + replace (n - (n - Nat.min k n))%nat with n by lia. rewrite !Z.div_small; auto. pose proof (pow2_lt n k Hk). lia.
Qed.
Lemma shl_max : forall x k n, 0 <= x -> (x * pow2 k) mod pow2 n <= pow2 n - pow2 (Nat.min k n).
Proof.
  clear Hreq. intros x k n Hx. destruct (Nat.le_gt_cases n k) as [H|H].
  - rewrite Nat.min_r by lia. replace (pow2 k) with (pow2 (k - n) * pow2 n) by (rewrite <- pow2_add; f_equal; lia).
    rewrite Z.mul_assoc, Z.mod_mul by (pose proof (pow2_pos n); lia). lia.
  - rewrite Nat.min_l by lia. replace (pow2 n) with (pow2 (n - k) * pow2 k) by (rewrite <- pow2_add; f_equal; lia).
    pose proof (pow2_pos k). pose proof (pow2_pos (n - k)). rewrite Z.mul_mod_distr_r by lia. pose proof (Z.mod_pos_bound x (pow2 (n - k)) ltac:(lia)). nia.
Qed.
Lemma finish_res : forall (C : Prop) (e : zexp) a n u, zkind e = KU a -> sem rho e = Some (VU n) -> ann_ok a -> upre a n u ->
  OK C (finish_uint a u) (fun u => exists v, sem rho e = Some v /\ ures e v u).
Proof.
  intros C e a n u K S Ha Hu. eapply ok_weaken; [apply (ok_finish C a n); auto|]. cbn beta. intros u' Hu'.
  exists (VU n). split; auto. unfold ures. rewrite K. auto.
Qed.
Lemma good_UNot : forall a e, good e -> good (ZUNot a e).
Proof.
  intros a e IH C [Ha [W [[ae [K Hw]] Hm]]] D HC. cbn [flat].
  eapply ok_bind; [apply (IH C W D); subdef HC|]. intros u [v [S Hu]]. apply (ures_KU _ _ _ _ K) in Hu as [x [-> Hx]].
  pose proof (urep_range _ _ _ (proj1 Hx)) as Hr. rewrite Hw in Hr.
  eapply ok_bind; [apply (ok_bitsM C _ _ _ Hx)|]. intros bx Hbx. rewrite Hw in Hbx.
  eapply ok_bind; [apply ok_assert|]. intros tt0 _.
  eapply ok_bind; [apply (ok_map_bits ext w HON rho G C not_bit negb)|]; [intros; apply ok_not_bit; auto|exact Hbx|].
  intros zs Hzs. cbn beta in Hzs. rewrite not_bits in Hzs by auto.
  apply finish_res with (n := pow2 (uw a) - 1 - x); auto.
  - cbn [sem]. rewrite S. auto.
  - apply upre_bits; auto; lia.
Qed.
Lemma good_Shl : forall a e k, good e -> good (ZShl a e k).
Proof.
  intros a e k IH C [Ha [W [ae [K [Hw Hm]]]]] D HC. cbn [flat].
  eapply ok_bind; [apply (IH C W D); subdef HC|]. intros u [v [S Hu]]. apply (ures_KU _ _ _ _ K) in Hu as [x [-> Hx]].
  pose proof (urep_range _ _ _ (proj1 Hx)) as Hr. rewrite Hw in Hr.
  eapply ok_bind; [apply (ok_bitsM C _ _ _ Hx)|]. intros bx Hbx. rewrite Hw in Hbx.
  eapply ok_bind; [apply ok_assert|]. intros tt0 _. pose proof (pow2_pos (uw a)) as Hp. pose proof (pow2_pos k) as Hpk.
  apply finish_res with (n := (x * pow2 k) mod pow2 (uw a)); auto.
  - cbn [sem]. rewrite S. auto.
  - assert (Hmod : 0 <= (x * pow2 k) mod pow2 (uw a) < pow2 (uw a)) by (apply Z.mod_pos_bound; auto).
    apply upre_bits; auto.
    + rewrite bits_be_mod, <- shl_bits. apply EB_app; [apply EB_skipn; auto|apply EB_zeros].
    + destruct Hx as [[N [HN [_ [HNn _]]]] _].
      assert (x <= N) by (rewrite <- HNn; apply Z.mod_le; [lia|apply pow2_pos]).
      assert ((x * pow2 k) mod pow2 (uw a) <= x * pow2 k) by (apply Z.mod_le; nia). pose proof (shl_max x k (uw a) ltac:(lia)). nia.
Qed.
Lemma good_Shr : forall a e k, good e -> good (ZShr a e k).
Proof.
  intros a e k IH C [Ha [W [ae [K [Hw Hm]]]]] D HC. cbn [flat].
  eapply ok_bind; [apply (IH C W D); subdef HC|]. intros u [v [S Hu]]. apply (ures_KU _ _ _ _ K) in Hu as [x [-> Hx]].
  pose proof (urep_range _ _ _ (proj1 Hx)) as Hr. rewrite Hw in Hr.
  eapply ok_bind; [apply (ok_bitsM C _ _ _ Hx)|]. intros bx Hbx. rewrite Hw in Hbx.
  eapply ok_bind; [apply ok_assert|]. intros tt0 _. pose proof (pow2_pos (uw a)) as Hp. pose proof (pow2_pos k) as Hpk.
  apply finish_res with (n := x / pow2 k); auto.
  - cbn [sem]. rewrite S. auto.
  - assert (0 <= x / pow2 k) by (apply Z.div_pos; lia).
    assert (x / pow2 k <= x) by (apply Z.div_le_upper_bound; nia).
    apply upre_bits; [|lia|].
    + rewrite <- shr_bits by auto. apply EB_app; [apply EB_zeros|apply EB_firstn; auto].
    + destruct Hx as [[N [HN [_ [HNn _]]]] _].
      assert (x <= N) by (rewrite <- HNn; apply Z.mod_le; [lia|apply pow2_pos]).
      assert (x / pow2 k <= ubound ae / pow2 k) by (apply Z.div_le_mono; lia). lia.
Qed.

Lemma fits_KU : forall a k', fits (KU a) k' -> exists a', k' = KU a' /\ uw a' = uw a /\ ubound a' <= fval (umax a).
Proof. auto. Qed.
(** the result of a conditional or a select, before a possible reduction *)
Definition kpre (k : kind) (v : val) (u : fu) : Prop :=
  match k, v with
  | KF, VF x => feval w (getf u) = x /\ is_val (getf u) = false
  | KB, VB b => feval w (getf u) = f_of_bool b
  | KU a, VU n => upre a n u
  | _, _ => False
  end.
Lemma ok_isU : forall (C : Prop) (m : M fu) e k v, zkind e = k -> kind_ok k -> is_lit e = false -> sem rho e = Some v ->
  OK C m (kpre k v) -> OK C (isU k m) (fun u => exists v, sem rho e = Some v /\ ures e v u).
Proof.
  intros C m e k v K Hk Hl S Hm. unfold isU. destruct k as [| |a].
  - eapply ok_weaken; [exact Hm|]. intros u Hu. cbn in Hu. destruct v; try contradiction. exists (VF x). unfold ures. rewrite K, Hl. auto.
  - eapply ok_weaken; [exact Hm|]. intros u Hu. cbn in Hu. destruct v; try contradiction. exists (VB b). unfold ures. rewrite K. auto.
  - eapply ok_bind; [exact Hm|]. intros u Hu. cbn in Hu. destruct v; try contradiction. apply finish_res with (n := n); auto.
Qed.
Lemma ures_kpre : forall e k v u u', fits k (zkind e) -> ures e v u ->
  feval w (getf u') = feval w (getf u) -> is_val (getf u') = false -> getbits u' = None -> kpre k v u'.
Proof.
  intros e k v u u' Hf Hu E Hv Hb. destruct k as [| |a]; cbn [fits] in Hf.
  - unfold ures in Hu. rewrite Hf in Hu. destruct v; try contradiction. cbn. rewrite E. tauto.
  - unfold ures in Hu. rewrite Hf in Hu. destruct v; try contradiction. cbn. rewrite E. auto.
  - destruct Hf as [a' [K [Hw Hm]]]. unfold ures in Hu. rewrite K in Hu. destruct v; try contradiction. cbn [kpre].
    destruct (urel_upre _ _ _ _ Hw Hm Hu) as [H1 _]. split; [rewrite E; auto|]. rewrite Hb. discriminate.
Qed.
(** as [ok_isU], when the value is only known after running [m] *)
Lemma ok_isU' : forall (C : Prop) (m : M fu) e k, zkind e = k -> kind_ok k -> is_lit e = false ->
  OK C m (fun u => exists v, sem rho e = Some v /\ kpre k v u) ->
  OK C (isU k m) (fun u => exists v, sem rho e = Some v /\ ures e v u).
Proof.
  intros C m e k K Hk Hl Hm. unfold isU. destruct k as [| |a].
  - eapply ok_weaken; [exact Hm|]. intros u [v [S Hu]]. cbn in Hu. destruct v; try contradiction. exists (VF x). unfold ures. rewrite K, Hl. auto.
  - eapply ok_weaken; [exact Hm|]. intros u [v [S Hu]]. cbn in Hu. destruct v; try contradiction. exists (VB b). unfold ures. rewrite K. auto.
  - eapply ok_bind; [exact Hm|]. intros u [v [S Hu]]. cbn in Hu. destruct v; try contradiction. apply finish_res with (n := n); auto.
Qed.
Lemma good_Cond : forall k c x y, good c -> good x -> good y -> good (ZCond k c x y).
Proof.
  intros k c x y IHc IHx IHy C [Hk [Wc [Wx [Wy [Kc [Fx Fy]]]]]] [Dc [Dx Dy]] HC. cbn [flat].
  apply ok_isU'; auto.
  eapply ok_bind; [apply (IHc C Wc Dc); subdef HC|]. intros uc [vc [Sc Hc]]. apply (ures_KB _ _ _ Kc) in Hc as [b [-> Hb]].
  eapply ok_bind; [apply ok_newdef|]. intros cid Hcid. cbn beta in Hcid. rewrite Hb in Hcid.
  eapply ok_bind; [apply (IHx C Wx Dx); subdef HC|]. intros ux [vx [Sx Hx]].
  eapply ok_bind; [apply (IHy C Wy Dy); subdef HC|]. intros uy [vy [Sy Hy]].
  eapply ok_weaken; [apply (ok_cond_flat ext w HON rho G C cid b); auto|]. cbn beta. intros u [H1 [H2 H3]].
  cbn [sem]. rewrite Sc, Sx, Sy. eexists; split; [reflexivity|].
  destruct b; [apply (ures_kpre x) with (u := ux)|apply (ures_kpre y) with (u := uy)]; auto.
Qed.

(** ** Select *)
Fixpoint selok (n idx : Z) (es : list zexp) (vs : list val) (l : list (fexp * fu)) : Prop :=
  match es, vs, l with
  | [], [], [] => True
  | e :: es', v :: vs', (c, u) :: l' =>
      sem rho e = Some v /\ ures e v u /\ feval w c = f_of_bool (n =? idx) /\ selok (n + 1) idx es' vs' l'
  | _, _, _ => False
  end.
Definition sel_go (i : zexp) := fix go (n : nat) (es : list zexp) : M (list (fexp * fu)) :=
  match es with
  | [] => ret []
  | e :: r =>
      assertM (is_red i) ;;;
      iv <- finish_uint (mkAnn 32 (of_Z (Z.of_nat n)) SRTrue) (UF (XVal (of_Z (Z.of_nat n))) None) ;;
      x <- flat i ;; c <- eq_check (getf iv) (getf x) ;;
      y <- flat e ;; rest <- go (S n) r ;; ret ((c, y) :: rest)
  end.
Lemma flat_sel : forall k es i, flat (ZSel k es i) =
  isU k (l <- sel_go i 0 es ;; rr <- select_fold (XVal f0) (XVal f0) l ;;
         emit (XCond (fst rr) one eSelectRangeCheck) ;;; ret (UF (snd rr) None)).
Proof. reflexivity. Qed.
Lemma wt_sel_all : forall k es,
  (fix go (l : list zexp) : Prop := match l with [] => True | e :: r => wt G e /\ fits k (zkind e) /\ go r end) es ->
  Forall (fun e => wt G e /\ fits k (zkind e)) es.
Proof. induction es as [|e r IH]; intros H; constructor; tauto. Qed.
Lemma divs_sel_all : forall es,
  (fix go (l : list zexp) : Prop := match l with [] => True | e :: r => divs rho e /\ go r end) es -> Forall (divs rho) es.
Proof. induction es as [|e r IH]; intros H; constructor; tauto. Qed.
Lemma opt_list_some : forall {A} (l : list (option A)) x, opt_list l <> None -> In x l -> x <> None.
Proof.
  induction l as [|[y|] r IH]; intros x H Hin; cbn in *; try tauto.
  destruct Hin as [<-|Hin]; [discriminate|]. apply IH; auto. destruct (opt_list r); congruence.
Qed.
Lemma ok_sel_go : forall (C : Prop) i ai, good i -> wt G i -> divs rho i -> zkind i = KU ai -> uw ai = 32%nat -> redT ai ->
  (HON -> C -> sem rho i <> None) ->
  forall es n, Forall good es -> Forall (wt G) es -> Forall (divs rho) es ->
  (HON -> C -> forall e, In e es -> sem rho e <> None) -> Z.of_nat (n + length es) <= pow2 32 ->
  OK C (sel_go i n es) (fun l => exists idx vs, (es <> [] -> sem rho i = Some (VU idx)) /\ selok (Z.of_nat n) idx es vs l).
Proof.
  intros C i ai Gi Wi Di Ki Hw Hr HCi. pose proof (wt_kind _ _ Wi) as Ha. rewrite Ki in Ha. destruct Ha as [_ [Ha _]]. rewrite Hw in Ha.
  pose proof (pow2_ltpp 32 ltac:(lia)) as H32.
  induction es as [|e r IH]; intros n Ge We De HCe Hn; cbn [sel_go].
  - apply ok_ret. exists 0, []. split; [congruence|exact I].
  - inversion Ge; inversion We; inversion De; subst. cbn [length] in Hn.
    assert (Hnv : fval (of_Z (Z.of_nat n)) = Z.of_nat n) by (apply fval_of_Z_small; lia).
    eapply ok_bind; [apply ok_assert|]. intros ? _.
    eapply ok_bind; [apply (ok_finish C _ (Z.of_nat n))|].
    { unfold ann_ok. cbn [uw umax]. rewrite Hnv. split; [lia|]. split; [lia|].
      pose proof (pow2_le 32 (required_bits - 1) ltac:(lia)). lia. }
    { split; [|cbn; discriminate]. exists (Z.of_nat n). cbn [uw umax getf feval]. rewrite Hnv. split; [lia|]. split; [|auto].
      apply Z.mod_small. lia. }
    intros iv [Hiv _]. apply urep_red in Hiv as [_ [Hiv _]]; [|reflexivity].
    eapply ok_bind; [apply (Gi C Wi Di HCi)|]. intros ux [vx [Sx Hx]].
    apply (ures_KU _ _ _ _ Ki) in Hx as [idx [-> [Hx _]]]. apply urep_red in Hx as [_ [Hx _]]; auto.
    eapply ok_bind; [apply ok_eq_check; auto|]. intros c Hc. cbn beta in Hc. rewrite Hiv, Hx in Hc.
    eapply ok_bind; [apply (H1 C); auto; intros h hc; apply (HCe h hc); left; auto|]. intros uy [vy [Sy Hy]].
    eapply ok_bind; [apply (IH (S n)); auto|].
    { intros h hc e' He'. apply (HCe h hc). right; auto. }
    { lia. }
    intros rest [idx' [vs [Si Hvs]]]. apply ok_ret. exists idx, (vy :: vs). split; [auto|]. cbn [selok].
    assert (Hvs' : selok (Z.of_nat (S n)) idx r vs rest).
    { destruct r as [|e' r']; [exact Hvs|]. specialize (Si ltac:(discriminate)). rewrite Sx in Si. injection Si as <-. exact Hvs. }
    clear Hvs. rename Hvs' into Hvs. rewrite Nat2Z.inj_succ in Hvs.
    replace (Z.of_nat n + 1) with (Z.succ (Z.of_nat n)) by lia. auto.
Qed.
Lemma ok_select_fold : forall (C : Prop) l n idx es vs rc res, selok n idx es vs l ->
  OK C (select_fold rc res l) (fun rr => is_val (snd rr) = is_val res && Nat.eqb (length l) 0 /\
    if (n <=? idx) && (idx <? n + Z.of_nat (length l))
    then exists e v u, nth_error es (Z.to_nat (idx - n)) = Some e /\ nth_error vs (Z.to_nat (idx - n)) = Some v /\ ures e v u /\
           feval w (fst rr) = fadd (feval w rc) f1 /\ feval w (snd rr) = fadd (feval w res) (feval w (getf u))
    else feval w (fst rr) = feval w rc /\ feval w (snd rr) = feval w res).
Proof.
  intros C. induction l as [|[c u] l IH]; intros n idx es vs rc res Hs; cbn [select_fold].
  - apply ok_ret. cbn [length]. cbn [Nat.eqb snd]. rewrite andb_true_r. split; [auto|]. destruct (Z.leb_spec n idx), (Z.ltb_spec idx (n + Z.of_nat 0)); cbn [andb]; auto; lia.
  - destruct es as [|e es]; [destruct vs; contradiction|]. destruct vs as [|v vs]; [contradiction|].
    destruct Hs as [Sv [Hu [Hc Hs]]].
    eapply ok_bind; [apply ok_newdef|]. intros t Ht. cbn [feval] in Ht. rewrite Hc in Ht.
    eapply ok_weaken; [apply (IH (n + 1) idx es vs); auto|]. cbn beta. intros rr [Hiv Hrr].
    cbn [is_val andb] in Hiv. cbn [length Nat.eqb]. rewrite andb_false_r. split; [auto|]. clear Hiv.
    cbn [feval] in Hrr. rewrite Hc, Ht in Hrr. cbn [length]. rewrite Nat2Z.inj_succ.
    destruct (Z.eqb_spec n idx) as [->|Hne].
    + destruct (Z.leb_spec (idx + 1) idx); [lia|]. cbn [andb] in Hrr. cbn [f_of_bool] in Hrr.
      destruct (Z.leb_spec idx idx), (Z.ltb_spec idx (idx + Z.succ (Z.of_nat (length l)))); cbn [andb]; try lia.
      rewrite Z.sub_diag. cbn [Z.to_nat nth_error]. exists e, v, u. destruct Hrr as [-> ->].
      split; [auto|]. split; [auto|]. split; [auto|]. split; ring.
    + destruct (Z.leb_spec (n + 1) idx), (Z.ltb_spec idx (n + 1 + Z.of_nat (length l))); cbn [andb] in Hrr;
      destruct (Z.leb_spec n idx), (Z.ltb_spec idx (n + Z.succ (Z.of_nat (length l)))); cbn [andb]; try lia;
      cbn [f_of_bool] in Hrr.
      * destruct Hrr as [e' [v' [u' [E1 [E2 [E3 [E4 E5]]]]]]]. exists e', v', u'.
        replace (Z.to_nat (idx - n)) with (S (Z.to_nat (idx - (n + 1)))) by lia. cbn [nth_error].
        split; [auto|]. split; [auto|]. split; [auto|]. rewrite E4, E5. split; ring.
      * destruct Hrr as [-> ->]. split; ring.
      * destruct Hrr as [-> ->]. split; ring.
Qed.
Lemma selok_sem : forall es vs l n idx, selok n idx es vs l -> opt_list (map (sem rho) es) = Some vs /\ length l = length es.
Proof.
  induction es as [|e es IH]; intros [|v vs] [|[c u] l] n idx H; cbn [selok] in H; try contradiction; cbn [map opt_list length]; auto.
  destruct H as [S [_ [_ H]]]. destruct (IH _ _ _ _ H) as [E El]. rewrite S, E. auto.
Qed.
Lemma good_Sel : forall k es i, Forall good es -> good i -> good (ZSel k es i).
Proof.
  intros k es i Ge Gi C [Hk [Wi [[ai [Ki [Hw Hr]]] [Hlen Wes]]]] [Di Des] HC. rewrite flat_sel.
  apply wt_sel_all in Wes. apply divs_sel_all in Des. apply ok_isU'; auto.
  assert (HCi : HON -> C -> sem rho i <> None) by subdef HC.
  assert (HCe : HON -> C -> forall e, In e es -> sem rho e <> None).
  { intros h hc e He. specialize (HC h hc). cbn [sem] in HC. apply (opt_list_some (map (sem rho) es)); [|apply in_map; auto].
    intros E. rewrite E in HC. destruct (sem rho i) as [[]|]; congruence. }
  eapply ok_bind; [apply (ok_sel_go C i ai); auto|].
  { eapply Forall_impl; [|exact Wes]. cbn. tauto. }
  intros l [idx [vs [Si Hsel]]]. destruct (selok_sem _ _ _ _ _ Hsel) as [Ses Hl].
  eapply ok_bind; [apply (ok_select_fold C l (Z.of_nat 0) idx es vs); auto|]. intros rr [Hiv Hrr]. cbn beta in Hrr. rewrite Hl in Hrr, Hiv.
  cbn [Z.of_nat feval] in Hrr. rewrite Z.sub_0_r in Hrr.
  destruct ((0 <=? idx) && (idx <? 0 + Z.of_nat (length es))) eqn:Eb.
  - destruct Hrr as [e [v [u [E1 [E2 [Hu [E4 E5]]]]]]]. apply andb_true_iff in Eb as [Eb _].
    eapply ok_bind; [apply ok_cond|].
    { intros _ _. rewrite E4. cbn [feval one]. ring. }
    intros ? _. apply ok_ret. cbn [sem]. rewrite Si, Ses, Eb by (intros ->; cbn in *; destruct (Z.to_nat idx); discriminate).
    exists v. split; [auto|].
    apply (ures_kpre e k v u); auto.
    + rewrite Forall_forall in Wes. apply Wes. eapply nth_error_In; eauto.
    + cbn [getf]. rewrite E5. ring.
    + cbn [getf]. rewrite Hiv. destruct es; [destruct (Z.to_nat idx); discriminate|]. apply andb_false_r.
  - destruct Hrr as [E1 E2].
    eapply ok_bind; [apply ok_cond|].
    { intros h hc. exfalso. apply (HC h hc). cbn [sem]. destruct (sem rho i) as [[| |m]|] eqn:Em; auto. rewrite Ses.
      destruct es as [|e0 es0].
      - cbn [map opt_list] in Ses. injection Ses as <-. destruct (0 <=? m); auto. destruct (Z.to_nat m); auto.
      - specialize (Si ltac:(discriminate)). injection Si as <-. destruct (Z.leb_spec 0 m); auto. cbn [andb] in Eb.
        apply Z.ltb_ge in Eb. apply nth_error_None. destruct (selok_sem _ _ _ _ _ Hsel) as [_ Hl'].
        assert (length vs = length (e0 :: es0)).
        { clear -Ses. revert vs Ses. induction (e0 :: es0) as [|e r IH]; intros vs H; cbn [map opt_list] in H.
          - injection H as <-. auto.
          - destruct (sem rho e); [|discriminate]. destruct (opt_list (map (sem rho) r)); [|discriminate]. injection H as <-. cbn. auto. }
        lia. }
    intros ? Hx. exfalso. rewrite E1 in Hx. cbn [feval one] in Hx. exact (F_1_neq_0 Hx).
Qed.

(** ** Binary operations on unsigned integers *)
(** What is known of the flat result of an operand of a bitwise operator: its value and its bits. *)
Definition ubts (a : ann) (n : Z) (u : fu) : Prop := 0 <= n < pow2 (uw a) /\ forall bits, getbits u = Some bits -> EB bits (bits_be (uw a) n).
Definition gbits (e : zexp) : Prop := forall C : Prop, opnd (wt G) e -> divs rho e -> (HON -> C -> sem rho e <> None) ->
  forall a, zkind e = KU a -> OK C (flat e) (fun u => exists n, sem rho e = Some (VU n) /\ ubts a n u).
Lemma urel_bts : forall a n u, urel a n u -> ubts a n u.
Proof. intros a n u H. split; [exact (urep_range _ _ _ (proj1 H))|apply H]. Qed.
Lemma ok_bitsB : forall (C : Prop) a n u, ubts a n u -> OK C (bitsM u) (fun bits => EB bits (bits_be (uw a) n)).
Proof. intros C a n u [_ H]. unfold bitsM. destruct (getbits u); [apply ok_ret; auto|apply ok_fail]. Qed.
Lemma ok_finish_bits : forall (C : Prop) a n bits, redT a -> 0 <= n < pow2 (uw a) -> EB bits (bits_be (uw a) n) -> OK C (finish_uint a (UB bits)) (ubts a n).
Proof.
  intros C a n bits Hr Hn Hb. unfold finish_uint. rewrite Hr. cbn [get_bits].
  eapply ok_bind with (P := fun b => b = bits).
  - eapply ok_bind; [apply ok_assert|]. intros ? _. eapply ok_bind; [apply ok_assert|]. intros ? _. apply ok_ret. reflexivity.
  - intros b ->. apply ok_ret. split; auto. cbn [getbits]. intros b E. injection E as <-. auto.
Qed.
Lemma gbits_ok : forall e, good e -> sub_ good e -> gbits e.
Proof.
  intros e Ge Gs.
  assert (N : wt G e -> forall C : Prop, divs rho e -> (HON -> C -> sem rho e <> None) ->
    forall a, zkind e = KU a -> OK C (flat e) (fun u => exists n, sem rho e = Some (VU n) /\ ubts a n u)).
  { intros W C D HC a K. eapply ok_weaken; [apply (Ge C W D HC)|]. cbn beta. intros u [v [S Hu]]. apply (ures_KU _ _ _ _ K) in Hu as [n [-> Hn]].
    exists n. split; auto. apply urel_bts. auto. }
  intros C W D HC a K. destruct e as [| | | | | | | | | | |b e k|b e k| | ]; cbn [opnd sub_] in *; try (exact (N W C D HC a K)); clear N.
  - destruct W as [Hb [Hr [We [ae [Ke [Hw _]]]]]]. cbn [zkind] in K. injection K as <-. cbn [divs] in D. cbn [flat].
    eapply ok_bind; [apply (Gs C We D); subdef HC|]. intros u [v [S Hu]]. apply (ures_KU _ _ _ _ Ke) in Hu as [x [-> Hx]].
    pose proof (urep_range _ _ _ (proj1 Hx)) as Hrx. rewrite Hw in Hrx.
    eapply ok_bind; [apply (ok_bitsM C _ _ _ Hx)|]. intros bx Hbx. rewrite Hw in Hbx.
    eapply ok_bind; [apply ok_assert|]. intros tt0 _.
    eapply ok_weaken; [apply (ok_finish_bits C b ((x * pow2 k) mod pow2 (uw b)))|]; auto.
    + apply Z.mod_pos_bound. apply pow2_pos.
    + rewrite bits_be_mod, <- shl_bits. apply EB_app; [apply EB_skipn; auto|apply EB_zeros].
    + cbn beta. intros u' Hu'. eexists. split; [|exact Hu']. cbn [sem]. rewrite S. auto.
  - destruct W as [Hb [Hr [We [ae [Ke [Hw _]]]]]]. cbn [zkind] in K. injection K as <-. cbn [divs] in D. cbn [flat].
    eapply ok_bind; [apply (Gs C We D); subdef HC|]. intros u [v [S Hu]]. apply (ures_KU _ _ _ _ Ke) in Hu as [x [-> Hx]].
    pose proof (urep_range _ _ _ (proj1 Hx)) as Hrx. rewrite Hw in Hrx. pose proof (pow2_pos k) as Hpk.
    eapply ok_bind; [apply (ok_bitsM C _ _ _ Hx)|]. intros bx Hbx. rewrite Hw in Hbx.
    eapply ok_bind; [apply ok_assert|]. intros tt0 _.
    eapply ok_weaken; [apply (ok_finish_bits C b (x / pow2 k))|]; auto.
    + split; [apply Z.div_pos; lia|]. apply Z.le_lt_trans with x; [apply Z.div_le_upper_bound; nia|lia].
    + rewrite <- shr_bits by auto. apply EB_app; [apply EB_zeros|apply EB_firstn; auto].
    + cbn beta. intros u' Hu'. eexists. split; [|exact Hu']. cbn [sem]. rewrite S. auto.
Qed.
Lemma urel_N : forall a n u, urel a n u -> exists N, 0 <= N <= ubound a /\ N < pp /\ N mod pow2 (uw a) = n /\ feval w (getf u) = of_Z N.
Proof. intros a n u [H _]. auto. Qed.
Lemma upre_f : forall a n f N, 0 <= N <= fval (umax a) -> N mod pow2 (uw a) = n -> feval w f = of_Z N -> upre a n (UF f None).
Proof. intros a n f N H1 H2 H3. split; [exists N; auto|]. cbn. discriminate. Qed.
Lemma ok_zip_u : forall (C : Prop) f g h a n m bx by_,
  (forall C x y p q, feval w x = f_of_bool p -> feval w y = f_of_bool q -> OK C (f x y) (fun z => feval w z = f_of_bool (g p q))) ->
  (forall x y i, Z.testbit (h x y) i = g (Z.testbit x i) (Z.testbit y i)) ->
  0 <= h n m < pow2 (uw a) -> pow2 (uw a) - 1 <= fval (umax a) ->
  EB bx (bits_be (uw a) n) -> EB by_ (bits_be (uw a) m) ->
  OK C (zs <- zipM f bx by_ ;; ret (UB zs)) (upre a (h n m)).
Proof.
  intros C f g h a n m bx by_ Hf Hh Hr Hm Hx Hy.
  eapply ok_bind; [apply (ok_zip_bits ext w HON rho G C f g) with (bx := bits_be (uw a) n) (by_ := bits_be (uw a) m); auto|].
  intros zs Hz. cbn beta in Hz. rewrite (zip2_bits h g) in Hz by auto. apply ok_ret. apply upre_bits; auto. lia.
Qed.
Lemma sem_ubin : forall a op l r x y, sem rho l = Some (VU x) -> sem rho r = Some (VU y) ->
  sem rho (ZUBin a op l r) = match sem_uop op (uw a) x y with Some z => Some (VU z) | None => None end.
Proof. intros. cbn [sem]. rewrite H, H0. auto. Qed.
Lemma good_xor_special : forall a l r ch ea eb ec, xor_view l r = Some (ch, (ea, eb, ec)) ->
  gbits ea -> gbits eb -> gbits ec -> good (ZUBin a UXor l r).
Proof.
  intros a l r ch ea eb ec Hv Ga Gb Gc C Hwt [Dl Dr] HC. rewrite flat_xor, Hv.
  destruct Hwt as [Ha [Wl [Wr [al [ar [Kl [Kr [Hwl [Hwr Hub]]]]]]]]]. cbn [ubin_ok] in Hub.
  assert (Hshape : exists aa ab ac, opnd (wt G) ea /\ opnd (wt G) eb /\ opnd (wt G) ec /\ divs rho ea /\ divs rho eb /\ divs rho ec /\
     zkind ea = KU aa /\ zkind eb = KU ab /\ zkind ec = KU ac /\ uw aa = uw a /\ uw ab = uw a /\ uw ac = uw a /\
     (sem rho (ZUBin a UXor l r) <> None -> sem rho ea <> None /\ sem rho eb <> None /\ sem rho ec <> None) /\
     (forall x y z, sem rho ea = Some (VU x) -> sem rho eb = Some (VU y) -> sem rho ec = Some (VU z) ->
        sem rho (ZUBin a UXor l r) = Some (VU (if ch then Z.lxor (Z.land x y) (Z.land (pow2 (uw a) - 1 - x) z)
                                              else Z.lxor (Z.lxor (Z.land x y) (Z.land x z)) (Z.land y z))))).
  { unfold xor_view in Hv. destruct l as [| | | | | | | | |al' opl l1 l2| | | | | ]; try discriminate. destruct opl; try discriminate.
    - destruct l1 as [| | | | | | | | |a1 op1 l11 l12| | | | | ]; try discriminate. destruct op1; try discriminate.
      destruct l2 as [| | | | | | | | |a2 op2 l21 l22| | | | | ]; try discriminate. destruct op2; try discriminate.
      destruct r as [| | | | | | | | |ar' opr r1 r2| | | | | ]; try discriminate. destruct opr; try discriminate.
      match type of Hv with (if ?c then _ else _) = _ => destruct c eqn:Ec end; [|discriminate]. injection Hv as <- <- <- <-.
      apply andb_true_iff in Ec as [Ec E3]. apply andb_true_iff in Ec as [E1 E2].
      apply zexp_eqb_eq in E1. apply zexp_eqb_eq in E2. apply zexp_eqb_eq in E3. subst l21 r1 r2.
      cbn [zkind] in Kl, Kr. injection Kl as ->. injection Kr as ->.
      destruct Wl as [_ [W1 [W2 [b1 [b2 [K1 [K2 [w1 [w2 _]]]]]]]]]. cbn [zkind] in K1, K2. injection K1 as ->. injection K2 as ->.
      destruct W1 as [_ [W11 [W12 [c1 [c2 [K11 [K12 [w11 [w12 _]]]]]]]]]. destruct W2 as [_ [_ [W22 [c3 [c4 [K21 [K22 [w21 [w22 _]]]]]]]]].
      destruct Dl as [[D1 D2] [_ D3]].
      exists c1, c2, c4. do 9 (split; [assumption|]). do 3 (split; [congruence|]). split.
      + intros X. cbn [sem] in X.
        destruct (sem rho l11) as [[]|], (sem rho l12) as [[]|], (sem rho l22) as [[]|]; try (exfalso; apply X; reflexivity);
          repeat split; discriminate.
      + intros x y z Sx Sy Sz. cbn [sem]. rewrite Sx, Sy, Sz. reflexivity.
    - destruct r as [| | | | | | | | |ar' opr r1 r2| | | | | ]; try discriminate. destruct opr; try discriminate.
      destruct r1 as [| | | | | | | | | |an r11| | | | ]; try discriminate.
      match type of Hv with (if ?c then _ else _) = _ => destruct c eqn:Ec end; [|discriminate]. injection Hv as <- <- <- <-.
      apply zexp_eqb_eq in Ec. subst r11. cbn [zkind] in Kl, Kr. injection Kl as ->. injection Kr as ->.
      destruct Wl as [_ [W11 [W12 [c1 [c2 [K11 [K12 [w11 [w12 _]]]]]]]]].
      destruct Wr as [_ [W21 [W22 [c3 [c4 [K21 [K22 [w21 [w22 _]]]]]]]]]. cbn [zkind] in K21. injection K21 as ->.
      destruct Dl as [D1 D2]. destruct Dr as [_ D3].
      exists c1, c2, c4. do 9 (split; [assumption|]). do 3 (split; [congruence|]). split.
      + intros X. cbn [sem] in X.
        destruct (sem rho l1) as [[]|], (sem rho l2) as [[]|], (sem rho r2) as [[]|]; try (exfalso; apply X; reflexivity);
          repeat split; discriminate.
      + intros x y z Sx Sy Sz. cbn [sem]. rewrite Sx, Sy, Sz. cbn [sem_uop]. unfold pow2. rewrite <- Hwr, <- w21. reflexivity. }
  destruct Hshape as [aa [ab [ac [Wa [Wb [Wc [Da [Db [Dc [Ka [Kb [Kc [Ea [Eb [Ec [HCs Hsem]]]]]]]]]]]]]]]].
  eapply ok_bind with (P := fun u => exists n, sem rho (ZUBin a UXor l r) = Some (VU n) /\ upre a n u);
    [|intros u [n [Sn Hn]]; apply (finish_res C _ a n u); [reflexivity|exact Sn|exact Ha|exact Hn]].
  eapply ok_bind; [apply (Ga C Wa Da) with (2 := Ka); intros h hc; apply (HCs (HC h hc))|]. intros ux [x [Sx Hx]].
  eapply ok_bind; [apply (Gb C Wb Db) with (2 := Kb); intros h hc; apply (HCs (HC h hc))|]. intros uy [y [Sy Hy]].
  eapply ok_bind; [apply (Gc C Wc Dc) with (2 := Kc); intros h hc; apply (HCs (HC h hc))|]. intros uz [z [Sz Hz]].
  pose proof (proj1 Hx) as Rx. pose proof (proj1 Hy) as Ry. pose proof (proj1 Hz) as Rz.
  rewrite Ea in Rx. rewrite Eb in Ry. rewrite Ec in Rz.
  eapply ok_bind; [apply (ok_bitsB C _ _ _ Hx)|]. intros bx Hbx. eapply ok_bind; [apply (ok_bitsB C _ _ _ Hy)|]. intros by_ Hby.
  eapply ok_bind; [apply (ok_bitsB C _ _ _ Hz)|]. intros bz Hbz. rewrite Ea in Hbx. rewrite Eb in Hby. rewrite Ec in Hbz.
  pose proof (Hsem x y z Sx Sy Sz) as HS. cbn beta iota in HS.
  assert (Rn : 0 <= pow2 (uw a) - 1 - x < pow2 (uw a)) by lia.
  destruct ch.
  - eapply ok_bind; [apply (ok_zip3_bits ext w HON rho G C ch_bit (fun a b c => xorb (a && b) (negb a && c))) with
        (bx := bits_be (uw a) x) (by_ := bits_be (uw a) y) (bz := bits_be (uw a) z); auto|].
    { intros. apply ok_ch_bit; auto. }
    intros zs Hzs. cbn beta in Hzs. rewrite zip3_ch in Hzs by auto. apply ok_ret. eexists; split; [exact HS|].
    assert (0 <= Z.lxor (Z.land x y) (Z.land (pow2 (uw a) - 1 - x) z) < pow2 (uw a)) by (apply lxor_range; apply land_range; auto).
    apply upre_bits; auto. lia.
  - eapply ok_bind; [apply (ok_zip3_bits ext w HON rho G C maj_bit (fun a b c => xorb (xorb (a && b) (a && c)) (b && c))) with
        (bx := bits_be (uw a) x) (by_ := bits_be (uw a) y) (bz := bits_be (uw a) z); auto|].
    { intros. apply ok_maj_bit; auto. }
    intros zs Hzs. cbn beta in Hzs. rewrite zip3_maj in Hzs by auto. apply ok_ret. eexists; split; [exact HS|].
    assert (0 <= Z.lxor (Z.lxor (Z.land x y) (Z.land x z)) (Z.land y z) < pow2 (uw a)).
    { apply lxor_range; [apply lxor_range|]; apply land_range; auto. }
    apply upre_bits; auto. lia.
Qed.
Lemma mod_pow2_weaken : forall x m n, (n <= m)%nat -> (x + pow2 m) mod pow2 n = x mod pow2 n.
Proof.
  intros x m n H. replace m with (m - n + n)%nat by lia. rewrite pow2_add. apply Z.mod_add. pose proof (pow2_pos n). lia.
Qed.
Lemma good_UBin : forall a op l r, good l -> good r -> gbits l -> gbits r -> (op = UXor -> xor_view l r = None) -> good (ZUBin a op l r).
Proof.
  intros a op l r IHl IHr Bl Br Hxv C [Ha [Wl [Wr [al [ar [Kl [Kr [Hwl [Hwr Hub]]]]]]]]] [Dl Dr] HC.
  assert (IHl' : wt G l -> OK C (flat l) (fun u => exists v, sem rho l = Some v /\ ures l v u)) by (intros W; apply (IHl C W Dl); subdef HC).
  assert (IHr' : wt G r -> OK C (flat r) (fun u => exists v, sem rho r = Some v /\ ures r v u)) by (intros W; apply (IHr C W Dr); subdef HC).
  pose proof (pow2_pos (uw a)) as Hpw.
  assert (Hop : wt G l -> wt G r -> forall k : fu -> fu -> M fu,
    (forall ul ur x y, sem rho l = Some (VU x) -> sem rho r = Some (VU y) -> urel al x ul -> urel ar y ur ->
       0 <= x < pow2 (uw a) -> 0 <= y < pow2 (uw a) ->
       OK C (k ul ur) (fun u => exists n, sem rho (ZUBin a op l r) = Some (VU n) /\ upre a n u)) ->
    OK C (res <- (x <- flat l ;; y <- flat r ;; k x y) ;; finish_uint a res)
       (fun u => exists v, sem rho (ZUBin a op l r) = Some v /\ ures (ZUBin a op l r) v u)).
  { intros Ql Qr k Hk. specialize (IHl' Ql). specialize (IHr' Qr). eapply ok_bind with (P := fun u => exists n, sem rho (ZUBin a op l r) = Some (VU n) /\ upre a n u); [|intros u [n [Sn Hn]]; apply (finish_res C _ a n u); [reflexivity|exact Sn|exact Ha|exact Hn]].
    eapply ok_bind; [exact IHl'|]. intros ul [vl [Sl Hl]]. apply (ures_KU _ _ _ _ Kl) in Hl as [x [-> Hx]].
    eapply ok_bind; [exact IHr'|]. intros ur [vr [Sr Hr]]. apply (ures_KU _ _ _ _ Kr) in Hr as [y [-> Hy]].
    apply Hk with (x := x) (y := y); auto.
    - rewrite <- Hwl. exact (urep_range _ _ _ (proj1 Hx)).
    - rewrite <- Hwr. exact (urep_range _ _ _ (proj1 Hy)). }
  assert (HopB : opnd (wt G) l -> opnd (wt G) r -> forall k : fu -> fu -> M fu,
    (forall ul ur x y, sem rho l = Some (VU x) -> sem rho r = Some (VU y) -> ubts al x ul -> ubts ar y ur ->
       0 <= x < pow2 (uw a) -> 0 <= y < pow2 (uw a) ->
       OK C (k ul ur) (fun u => exists n, sem rho (ZUBin a op l r) = Some (VU n) /\ upre a n u)) ->
    OK C (res <- (x <- flat l ;; y <- flat r ;; k x y) ;; finish_uint a res)
       (fun u => exists v, sem rho (ZUBin a op l r) = Some v /\ ures (ZUBin a op l r) v u)).
  { intros Ql Qr k Hk. eapply ok_bind with (P := fun u => exists n, sem rho (ZUBin a op l r) = Some (VU n) /\ upre a n u); [|intros u [n [Sn Hn]]; apply (finish_res C _ a n u); [reflexivity|exact Sn|exact Ha|exact Hn]].
    eapply ok_bind; [apply (Bl C Ql Dl) with (2 := Kl); subdef HC|]. intros ul [x [Sl Hx]].
    eapply ok_bind; [apply (Br C Qr Dr) with (2 := Kr); subdef HC|]. intros ur [y [Sr Hy]].
    apply Hk with (x := x) (y := y); auto.
    - rewrite <- Hwl. exact (proj1 Hx).
    - rewrite <- Hwr. exact (proj1 Hy). }
  destruct Ha as [Ha1 [Ha2 Ha3]].
  destruct op; cbn [ubin_ok opw] in Hub, Wl, Wr.
  - apply (Hop Wl Wr (fun x y => u <- linearise (getf x) ;; v <- linearise (getf y) ;; ret (UF (XAdd u v) None))).
    intros ul ur x y Sl Sr Hl Hr _ _. rewrite (sem_ubin _ _ _ _ _ _ Sl Sr).
    apply urel_N in Hl as [N1 [B1 [_ [E1 V1]]]]. apply urel_N in Hr as [N2 [B2 [_ [E2 V2]]]].
    eapply ok_bind; [apply ok_linearise|]. intros u [Hu _]. eapply ok_bind; [apply ok_linearise|]. intros v [Hv _]. apply ok_ret.
    eexists; split; [reflexivity|]. rewrite Hwl in E1. rewrite Hwr in E2.
    apply upre_f with (N := N1 + N2); [lia| |cbn [feval]; rewrite Hu, Hv, V1, V2, of_Z_add; auto].
    unfold wrap, pow2 in *. rewrite <- E1, <- E2, <- Z.add_mod by lia. auto.
  - apply (Hop Wl Wr (fun x y => u <- linearise (getf x) ;; v <- linearise (getf y) ;;
        ret (UF (XAdd (XVal (of_Z (pow2 (Nat.max (ubits_of r) (uw a))))) (XSub u v)) None))).
    intros ul ur x y Sl Sr Hl Hr _ _. rewrite (sem_ubin _ _ _ _ _ _ Sl Sr). unfold ubits_of. rewrite Kr.
    apply urel_N in Hl as [N1 [B1 [_ [E1 V1]]]]. apply urel_N in Hr as [N2 [B2 [_ [E2 V2]]]].
    eapply ok_bind; [apply ok_linearise|]. intros u [Hu _]. eapply ok_bind; [apply ok_linearise|]. intros v [Hv _]. apply ok_ret.
    eexists; split; [reflexivity|]. rewrite Hwl in E1. rewrite Hwr in E2.
    set (m := Nat.max (fbits (umax ar)) (uw a)) in *.
    assert (N2 < pow2 m).
    { pose proof (ubound_le ar). pose proof (fbits_spec (umax ar)). pose proof (pow2_le (fbits (umax ar)) m ltac:(lia)). lia. }
    apply upre_f with (N := N1 - N2 + pow2 m); [lia| |].
    + rewrite mod_pow2_weaken by lia. unfold wrap. fold (pow2 (uw a)). rewrite <- E1, <- E2, <- Zminus_mod. auto.
    + cbn [feval]. rewrite Hu, Hv, V1, V2, of_Z_add, of_Z_sub. ring.
  - apply (Hop Wl Wr (fun x y => u <- linearise (getf x) ;; v <- linearise (getf y) ;; z <- newdef (XMul u v) ;; ret (UF (XId z) None))).
    intros ul ur x y Sl Sr Hl Hr _ _. rewrite (sem_ubin _ _ _ _ _ _ Sl Sr).
    apply urel_N in Hl as [N1 [B1 [_ [E1 V1]]]]. apply urel_N in Hr as [N2 [B2 [_ [E2 V2]]]].
    eapply ok_bind; [apply ok_linearise|]. intros u [Hu _]. eapply ok_bind; [apply ok_linearise|]. intros v [Hv _].
    eapply ok_bind; [apply ok_newdef|]. intros z Hz. apply ok_ret. cbn [feval] in Hz.
    eexists; split; [reflexivity|]. rewrite Hwl in E1. rewrite Hwr in E2.
    apply upre_f with (N := N1 * N2); [nia| |cbn [feval]; rewrite Hz, Hu, Hv, V1, V2, of_Z_mul; auto].
    unfold wrap, pow2 in *. rewrite <- E1, <- E2, <- Z.mul_mod by lia. auto.
  - destruct Hub as [R1 [R2 Hm]].
    apply (Hop Wl Wr (fun x y => qr <- euclid (uw a) (getf x) (getf y) ;; ret (UF (fst qr) None))).
    intros ul ur x y Sl Sr Hl Hr Rx Ry. rewrite (sem_ubin _ _ _ _ _ _ Sl Sr).
    destruct (urep_red _ _ _ R1 (proj1 Hl)) as [_ [V1 _]]. destruct (urep_red _ _ _ R2 (proj1 Hr)) as [_ [V2 _]].
    eapply ok_bind; [apply ok_euclid; auto; try lia|].
    { rewrite V2. intros h hc E. apply (HC h hc). rewrite (sem_ubin _ _ _ _ _ _ Sl Sr). cbn [sem_uop]. rewrite E. reflexivity. }
    intros qr [Hn0 [Hq _]]. rewrite V1, V2 in *. apply ok_ret. cbn [sem_uop].
    destruct (Z.eqb_spec y 0); [contradiction|]. eexists; split; [reflexivity|].
    assert (0 <= x / y <= x) by (split; [apply Z.div_pos; lia|apply Z.div_le_upper_bound; nia]).
    apply upre_f with (N := x / y); [lia|apply Z.mod_small; lia|auto].
  - destruct Hub as [R1 [R2 Hm]].
    apply (Hop Wl Wr (fun x y => qr <- euclid (uw a) (getf x) (getf y) ;; ret (UF (snd qr) None))).
    intros ul ur x y Sl Sr Hl Hr Rx Ry. rewrite (sem_ubin _ _ _ _ _ _ Sl Sr).
    destruct (urep_red _ _ _ R1 (proj1 Hl)) as [_ [V1 _]]. destruct (urep_red _ _ _ R2 (proj1 Hr)) as [_ [V2 _]].
    eapply ok_bind; [apply ok_euclid; auto; try lia|].
    { rewrite V2. intros h hc E. apply (HC h hc). rewrite (sem_ubin _ _ _ _ _ _ Sl Sr). cbn [sem_uop]. rewrite E. reflexivity. }
    intros qr [Hn0 [_ Hq]]. rewrite V1, V2 in *. apply ok_ret. cbn [sem_uop].
    destruct (Z.eqb_spec y 0); [contradiction|]. eexists; split; [reflexivity|].
    pose proof (Z.mod_pos_bound x y ltac:(lia)).
    apply upre_f with (N := x mod y); [lia|apply Z.mod_small; lia|auto].
  - rewrite flat_xor, (Hxv eq_refl).
    apply (HopB Wl Wr (fun x y => bx <- bitsM x ;; by_ <- bitsM y ;; zs <- zipM xor_bit bx by_ ;; ret (UB zs))).
    intros ul ur x y Sl Sr Hl Hr Rx Ry. rewrite (sem_ubin _ _ _ _ _ _ Sl Sr).
    eapply ok_bind; [apply (ok_bitsB C _ _ _ Hl)|]. intros bx Hbx. eapply ok_bind; [apply (ok_bitsB C _ _ _ Hr)|]. intros by_ Hby.
    rewrite Hwl in Hbx. rewrite Hwr in Hby.
    eapply ok_weaken; [apply (ok_zip_u C xor_bit xorb Z.lxor a x y); auto|].
    + intros. apply ok_xor_bit; auto.
    + intros. apply Z.lxor_spec.
    + apply lxor_range; auto.
    + cbn [sem_uop]. intros u Hu. eauto.
  - apply (HopB Wl Wr (fun x y => bx <- bitsM x ;; by_ <- bitsM y ;; assertM (Nat.eqb (length bx) (uw a) && Nat.eqb (length by_) (uw a)) ;;;
                           zs <- zipM and_bit bx by_ ;; ret (UB zs))).
    intros ul ur x y Sl Sr Hl Hr Rx Ry. rewrite (sem_ubin _ _ _ _ _ _ Sl Sr).
    eapply ok_bind; [apply (ok_bitsB C _ _ _ Hl)|]. intros bx Hbx. eapply ok_bind; [apply (ok_bitsB C _ _ _ Hr)|]. intros by_ Hby.
    rewrite Hwl in Hbx. rewrite Hwr in Hby. eapply ok_bind; [apply ok_assert|]. intros ? _.
    eapply ok_weaken; [apply (ok_zip_u C and_bit andb Z.land a x y); auto|].
    + intros. apply ok_and_bit; auto.
    + intros. apply Z.land_spec.
    + apply land_range; auto.
    + cbn [sem_uop]. intros u Hu. eauto.
  - apply (HopB Wl Wr (fun x y => bx <- bitsM x ;; by_ <- bitsM y ;; assertM (Nat.eqb (length bx) (uw a) && Nat.eqb (length by_) (uw a)) ;;;
                           zs <- zipM or_bit bx by_ ;; ret (UB zs))).
    intros ul ur x y Sl Sr Hl Hr Rx Ry. rewrite (sem_ubin _ _ _ _ _ _ Sl Sr).
    eapply ok_bind; [apply (ok_bitsB C _ _ _ Hl)|]. intros bx Hbx. eapply ok_bind; [apply (ok_bitsB C _ _ _ Hr)|]. intros by_ Hby.
    rewrite Hwl in Hbx. rewrite Hwr in Hby. eapply ok_bind; [apply ok_assert|]. intros ? _.
    eapply ok_weaken; [apply (ok_zip_u C or_bit orb Z.lor a x y); auto|].
    + intros. apply ok_or_bit; auto.
    + intros. apply Z.lor_spec.
    + apply lor_range; auto.
    + cbn [sem_uop]. intros u Hu. eauto.
Qed.

Lemma xor_view_size : forall l r ch ea eb ec, xor_view l r = Some (ch, (ea, eb, ec)) ->
  (zsize ea < zsize l /\ zsize eb < zsize l /\ zsize ec < zsize l + zsize r)%nat.
Proof.
  clear Hreq. intros l r ch ea eb ec Hv. unfold xor_view in Hv.
  destruct l as [| | | | | | | | |al' opl l1 l2| | | | | ]; try discriminate. destruct opl; try discriminate.
  - destruct l1 as [| | | | | | | | |a1 op1 l11 l12| | | | | ]; try discriminate. destruct op1; try discriminate.
    destruct l2 as [| | | | | | | | |a2 op2 l21 l22| | | | | ]; try discriminate. destruct op2; try discriminate.
    destruct r as [| | | | | | | | |ar' opr r1 r2| | | | | ]; try discriminate. destruct opr; try discriminate.
    match type of Hv with (if ?c then _ else _) = _ => destruct c eqn:Ec end; [|discriminate]. injection Hv as <- <- <- <-. cbn [zsize]. lia.
  - destruct r as [| | | | | | | | |ar' opr r1 r2| | | | | ]; try discriminate. destruct opr; try discriminate.
    destruct r1 as [| | | | | | | | | |an r11| | | | ]; try discriminate.
    match type of Hv with (if ?c then _ else _) = _ => destruct c eqn:Ec end; [|discriminate]. injection Hv as <- <- <- <-. cbn [zsize]. lia.
Qed.
(** Every expression is translated correctly. *)
Theorem flat_ok : forall e, good e.
Proof.
  assert (A : forall n e, (zsize e < n)%nat -> good e).
  { induction n as [|n IH]; intros e Hs; [lia|]. destruct e; cbn [zsize] in Hs.
    - apply good_FVal. 
    - apply good_BVal.
    - apply good_UVal.
    - apply good_Id.
    - apply good_FBin; apply IH; lia.
    - apply good_Pow; apply IH; lia.
    - apply good_Cmp; apply IH; lia.
    - apply good_BBin; apply IH; lia.
    - apply good_BNot; apply IH; lia.
    - assert (IH1 : good e1) by (apply IH; lia). assert (IH2 : good e2) by (apply IH; lia).
      assert (B : forall e, (zsize e < n)%nat -> gbits e).
      { intros e He. apply gbits_ok; [apply IH; auto|]. destruct e; cbn [sub_ zsize] in *; try exact I; apply IH; lia. }
      assert (B1 : gbits e1) by (apply B; lia). assert (B2 : gbits e2) by (apply B; lia). destruct op; try (apply good_UBin; auto; discriminate).
      destruct (xor_view e1 e2) as [[ch [[ea eb] ec]]|] eqn:Ev; [|apply good_UBin; auto].
      pose proof (xor_view_size _ _ _ _ _ _ Ev). apply (good_xor_special a e1 e2 ch ea eb ec Ev); apply B; lia.
    - apply good_UNot; apply IH; lia.
    - apply good_Shl; apply IH; lia.
    - apply good_Shr; apply IH; lia.
    - apply good_Cond; apply IH; lia.
    - apply good_Sel; [|apply IH; lia]. assert (Hs' : ((fix go (l : list zexp) : nat := match l with [] => 0 | e :: r => zsize e + go r end) es < n)%nat) by lia.
      clear Hs. induction es as [|e0 r IHr]; constructor; [apply IH; lia|apply IHr; lia]. }
  intros e. apply (A (S (zsize e))). lia.
Qed.
End Expr.
