(** The uint optimiser: it never panics on typed programs, keeps their meaning, and establishes what the code generator
    expects, away from the two wrong maxima of [max_ok]. *)
From Coq Require Import ZArith NArith List Bool Lia.
From Verif Require Import PField IR Interp Bits Flat FlatProofs Zir Codegen CgBase CgGadgets CgExpr CgStmt CgProg UintOpt.
Import ListNotations.
Open Scope Z_scope.

Section UOP.
Context {PF : PrimeField}.

Lemma mu_lt : mu < pp.
Proof. unfold mu. pose proof required_bits_bounds. lia. Qed.
Lemma wid_range : forall w, wid w -> range_ok w = true.
Proof. intros w [H1 H2]. unfold range_ok. apply Nat.ltb_lt. pose proof (Nat.div2_odd (required_bits - 1)). destruct (Nat.odd (required_bits - 1)); cbn in *; lia. Qed.
Lemma wid_pow : forall w, wid w -> 2 <= pow2 w /\ 8 * (pow2 w * pow2 w) <= pow2 required_bits /\ 4 * (pow2 w * pow2 w) - 1 <= mu.
Proof.
  intros w [H1 H2]. assert (2 <= pow2 w) by (change 2 with (pow2 1); apply pow2_le; lia).
  assert (8 * (pow2 w * pow2 w) <= pow2 required_bits) by (change 8 with (pow2 3); rewrite <- !pow2_add; apply pow2_le; lia).
  assert (4 * (pow2 w * pow2 w) <= pow2 (required_bits - 1)) by (change 4 with (pow2 2); rewrite <- !pow2_add; apply pow2_le; lia).
  unfold mu. auto with zarith.
Qed.
Lemma fval_rm : forall w, wid w -> fval (range_max w) = pow2 w - 1.
Proof. intros w H. apply wid_pow in H. unfold range_max. apply fval_of_Z_small. pose proof mu_lt. nia. Qed.
Lemma fadd_small : forall a b : F, fval a + fval b < pp -> fval (fadd a b) = fval a + fval b.
Proof. intros a b H. pose proof (fval_range a). pose proof (fval_range b). cbn [fadd fval]. apply Z.mod_small. lia. Qed.
Lemma fmul_small : forall a b : F, fval a * fval b < pp -> fval (fmul a b) = fval a * fval b.
Proof. intros a b H. pose proof (fval_range a). pose proof (fval_range b). cbn [fmul fval]. apply Z.mod_small. nia. Qed.

Lemma checked_add_ok : forall a b, fval a <= mu -> fval b <= mu ->
  (exists m, checked_add a b = Some (Some m) /\ fval m = fval a + fval b /\ fval m <= mu) \/ (checked_add a b = Some None /\ mu < fval a + fval b).
Proof.
  intros a b Ha Hb. unfold checked_add. apply Z.leb_le in Ha, Hb. rewrite Ha, Hb. cbn [andb oassert]. pose proof mu_lt.
  destruct (Z.ltb_spec mu (fval a + fval b)); [right; auto|left]. eexists. split; [reflexivity|]. rewrite fadd_small by lia. lia.
Qed.
Lemma checked_mul_ok : forall a b, fval a <= mu -> fval b <= mu ->
  (exists m, checked_mul a b = Some (Some m) /\ fval m = fval a * fval b /\ fval m <= mu) \/ (checked_mul a b = Some None /\ mu < fval a * fval b).
Proof.
  intros a b Ha Hb. unfold checked_mul. apply Z.leb_le in Ha, Hb. rewrite Ha, Hb. cbn [andb oassert]. pose proof mu_lt.
  destruct (Z.ltb_spec mu (fval a * fval b)); [right; auto|left]. eexists. split; [reflexivity|]. rewrite fmul_small by lia. lia.
Qed.

Definition sr (b : bool) : sreduce := if b then SRTrue else SRFalse.
Lemma choose_ok : forall op w al ar, wid w -> uw al = w -> uw ar = w -> fval (umax al) <= mu -> fval (umax ar) <= mu ->
  exists bl br m, choose_op op w (umax al) (umax ar) = Some (bl, br, m) /\ fval m <= mu /\
    ((op = USub -> fval (umax ar) < pow2 (required_bits - 2)) ->
     ubin_ok (with_max w m) op (mkAnn w (umax al) (sr bl)) (mkAnn w (umax ar) (sr br))).
Proof.
  intros op w al ar Hw Hl Hr Ml Mr. pose proof (wid_pow w Hw) as [P1 [P2 P3]]. pose proof (fval_rm w Hw) as Hrm. pose proof mu_lt as Hmu.
  pose proof (fval_range (umax al)) as Rl. pose proof (fval_range (umax ar)) as Rr.
  assert (Mrm : fval (range_max w) <= mu) by nia.
  assert (Hrest : forall op, match op with UDiv | URem | UXor | UAnd | UOr => True | _ => False end ->
    exists bl br m, choose_op op w (umax al) (umax ar) = Some (bl, br, m) /\ fval m <= mu /\
    ubin_ok (with_max w m) op (mkAnn w (umax al) (sr bl)) (mkAnn w (umax ar) (sr br))).
  { intros op' H. exists true, true, (range_max w). destruct op'; try contradiction; cbn [choose_op ubin_ok with_max umax uw]; (split; [reflexivity|]); (split; [auto|]); unfold redT; cbn [ured sr]; rewrite ?Hrm; repeat split; lia. }
  specialize (Hrest op). destruct op; try (destruct (Hrest I) as [bl [br [m [A [B C]]]]]; exists bl, br, m; solve [auto]); clear Hrest; cbn [choose_op].
  - unfold choose. destruct (checked_add_ok (umax al) (umax ar) Ml Mr) as [[m [-> [E L]]]|[-> _]]; cbn [obind].
    { exists false, false, m. split; auto. split; auto. intros _. cbn. unfold ubound. cbn. lia. }
    destruct (checked_add_ok (range_max w) (umax ar) Mrm Mr) as [[m [-> [E L]]]|[-> _]]; cbn [obind].
    { exists true, false, m. split; auto. split; auto. intros _. cbn. unfold ubound. cbn. lia. }
    destruct (checked_add_ok (umax al) (range_max w) Ml Mrm) as [[m [-> [E L]]]|[-> _]]; cbn [obind].
    { exists false, true, m. split; auto. split; auto. intros _. cbn. unfold ubound. cbn. lia. }
    eexists true, true, _. split; [reflexivity|]. rewrite fadd_small by nia. split; [nia|]. intros _. cbn [ubin_ok]. unfold ubound. cbn [ured with_max umax sr uw]. rewrite fadd_small by nia. lia.
  - unfold choose_sub. pose proof (fbits_spec (umax ar)) as Hb. pose proof (fbits_pos (umax ar)) as Hb1.
    assert (Hb2 : (fbits (umax ar) <= required_bits - 1)%nat) by (apply fbits_le; [destruct Hw; lia|unfold mu in Mr; lia]).
    assert (Ht : fval (of_Z (pow2 w) : F) = pow2 w) by (apply fval_of_Z_small; nia).
    destruct (Nat.eqb_spec (fbits (umax ar)) (required_bits - 1)) as [E|N].
    + destruct (checked_add_ok (umax al) (of_Z (pow2 w)) Ml ltac:(nia)) as [[m [-> [Em L]]]|[-> _]]; cbn [obind].
      * exists false, true, m. split; auto. split; auto. intros H. exfalso.
        assert (fbits (umax ar) <= required_bits - 2)%nat by (apply fbits_le; [destruct Hw; lia|auto]). destruct Hw; lia.
      * eexists true, true, _. split; [reflexivity|]. rewrite fadd_small by nia. split; [nia|]. intros H. exfalso.
        assert (fbits (umax ar) <= required_bits - 2)%nat by (apply fbits_le; [destruct Hw; lia|auto]). destruct Hw; lia.
    + set (n := Nat.max (fbits (umax ar)) w). assert (Hn : (n <= required_bits - 2)%nat) by (destruct Hw; lia).
      pose proof (pow2_le _ _ Hn) as Hn2. pose proof (pow2_pos n).
      assert (Hq : pow2 (required_bits - 1) = 2 * pow2 (required_bits - 2)) by (rewrite <- pow2_S; f_equal; destruct Hw; lia).
      assert (Ho : fval (of_Z (pow2 n) : F) = pow2 n) by (apply fval_of_Z_small; unfold mu in *; lia).
      destruct (checked_add_ok (umax al) (of_Z (pow2 n)) Ml ltac:(unfold mu; lia)) as [[m [-> [Em L]]]|[-> _]]; cbn [obind].
      * exists false, false, m. split; auto. split; auto. intros _. cbn [ubin_ok]. unfold ubound. cbn [ured with_max umax sr uw]. fold n. lia.
      * destruct (checked_add_ok (range_max w) (of_Z (pow2 n)) Mrm ltac:(unfold mu; lia)) as [[m [-> [Em L]]]|[-> L]]; cbn [obind].
        -- exists true, false, m. split; auto. split; auto. intros _. cbn [ubin_ok]. unfold ubound. cbn [ured with_max umax sr uw]. fold n. lia.
        -- exfalso. rewrite Ho, Hrm in L. unfold mu in L. assert (pow2 w <= pow2 (required_bits - 2)) by (apply pow2_le; destruct Hw; lia). lia.
  - unfold choose. destruct (checked_mul_ok (umax al) (umax ar) Ml Mr) as [[m [-> [E L]]]|[-> _]]; cbn [obind].
    { exists false, false, m. split; auto. split; auto. intros _. cbn. unfold ubound. cbn. lia. }
    destruct (checked_mul_ok (range_max w) (umax ar) Mrm Mr) as [[m [-> [E L]]]|[-> _]]; cbn [obind].
    { exists true, false, m. split; auto. split; auto. intros _. cbn. unfold ubound. cbn. rewrite E, Hrm. apply Z.mul_le_mono_nonneg_r; lia. }
    destruct (checked_mul_ok (umax al) (range_max w) Ml Mrm) as [[m [-> [E L]]]|[-> _]]; cbn [obind].
    { exists false, true, m. split; auto. split; auto. intros _. cbn. unfold ubound. cbn. rewrite E, Hrm. apply Z.mul_le_mono_nonneg_l; lia. }
    eexists true, true, _. split; [reflexivity|]. rewrite fmul_small by (rewrite Hrm; nia). split; [rewrite Hrm; nia|]. intros _. cbn [ubin_ok]. unfold ubound. cbn [ured with_max umax sr uw].
    rewrite fmul_small by (rewrite Hrm; nia). rewrite Hrm. apply Z.mul_le_mono_nonneg; lia.
Qed.

(** ** Changing the reduction flag *)
Lemma kind_KU : forall e a, uann e = Some a <-> zkind e = KU a.
Proof. intros e a. unfold uann. destruct (zkind e); split; congruence. Qed.
Definition reflag (r : sreduce) (a : ann) : ann := mkAnn (uw a) (umax a) r.
Lemma set_kind : forall e a a', uann e = Some a -> zkind (set_ann a' e) = KU a'.
Proof. intros e a a' H. apply kind_KU in H. destruct e; try destruct k; cbn in *; try discriminate; auto. Qed.
Lemma set_sem : forall e a r rho, uann e = Some a -> sem rho (set_ann (reflag r a) e) = sem rho e.
Proof. intros e a r rho H. apply kind_KU in H. destruct e; try destruct k; cbn in *; try discriminate; try injection H as ->; auto. Qed.
Lemma set_lit : forall e a r, uann e = Some a -> is_lit (set_ann (reflag r a) e) = is_lit e.
Proof. intros e a r H. apply kind_KU in H. destruct e; try destruct k; cbn in *; try discriminate; auto. Qed.
Lemma set_max : forall e a r, uann e = Some a -> max_ok (set_ann (reflag r a) e) -> max_ok e.
Proof. intros e a r H. apply kind_KU in H. destruct e; try destruct k; cbn in *; try discriminate; try injection H as ->; auto. Qed.
Lemma set_wt : forall G e a r, uann e = Some a -> wt G e -> wt G (set_ann (reflag r a) e).
Proof.
  intros G e a r H. apply kind_KU in H. destruct a as [w m r0]. unfold reflag; cbn [uw umax].
  destruct e; try destruct k; cbn [zkind] in H; try discriminate; try injection H as ->; cbn [set_ann]; intros W; exact W.
Qed.

(** ** Expressions *)
Definition rel (S : senv) (M : menv) (G : tenv) : Prop := forall x t, S x = Some t ->
  match t with
  | PU_ w => exists m k', M x w = Some m /\ uw m = w /\ ured m = SRFalse /\ fval (umax m) <= mu /\ G x = Some k' /\ fits (KU m) k'
  | PF_ => G x = Some KF
  | PB_ => G x = Some KB
  end.
Definition uok (e : zexp) : Prop := annP (fun a => ured a <> SRTrue /\ fval (umax a) <= mu /\ wid (uw a)) e.
Definition uo_res (M : menv) (G : tenv) (e : zexp) (t : ptype) : Prop :=
  exists e', uo M e = Some e' /\ kty (zkind e') = t /\ uok e' /\ (forall rho, sem rho e' = sem rho e) /\ is_lit e' = is_lit e /\ (max_ok e' -> wt G e').

Lemma uok_u : forall e w, uok e -> kty (zkind e) = PU_ w -> exists a, uann e = Some a /\ uw a = w /\ ured a <> SRTrue /\ fval (umax a) <= mu /\ wid w.
Proof. intros e w H K. unfold uok, annP, uann in *. destruct (zkind e) as [| |a]; try discriminate. injection K as <-. exists a. intuition. Qed.
Lemma force_ok : forall b e w, uok e -> kty (zkind e) = PU_ w -> exists a, uann e = Some a /\ uw a = w /\ fval (umax a) <= mu /\ wid w /\
  force b e = Some (set_ann (reflag (sr b) a) e).
Proof.
  intros b e w H K. destruct (uok_u _ _ H K) as [a [Ha [Hw [Hr [Hm Hwd]]]]]. exists a. do 4 (split; auto).
  destruct b; cbn [force]; [unfold force_reduce|unfold force_no_reduce]; rewrite Ha; cbn [obind]; auto. destruct (ured a) eqn:E; [reflexivity|congruence|reflexivity].
Qed.
Lemma mu_wid : forall w, wid w -> pow2 w - 1 <= mu.
Proof. intros w H. apply wid_pow in H. nia. Qed.
Lemma mk_ann_ok : forall w m r, wid w -> fval m <= mu -> ann_ok (mkAnn w m r).
Proof. intros w m r [H1 H2] H. unfold ann_ok, mu in *. cbn. repeat split; auto; lia. Qed.
Lemma land_ones : forall x w, 0 <= x -> Z.land x (pow2 w - 1) = x mod pow2 w.
Proof. intros x w H. unfold pow2. rewrite <- Z.land_ones by lia. f_equal. rewrite Z.ones_equiv. lia. Qed.

Lemma has_sel_go : forall S t l, (fix go (l : list zexp) : Prop := match l with [] => True | e :: r => has_ty S e t /\ go r end) l <-> Forall (fun e => has_ty S e t) l.
Proof. intros S t. induction l as [|e l IH]; [split; auto|]. split; [intros [A B]|intros H; inversion H]; [constructor; tauto|split; tauto]. Qed.
Lemma max_sel_go : forall l, (fix go (l : list zexp) : Prop := match l with [] => True | e :: r => max_ok e /\ go r end) l <-> Forall max_ok l.
Proof. induction l as [|e l IH]; [split; auto|]. split; [intros [A B]|intros H; inversion H]; [constructor; tauto|split; tauto]. Qed.
Lemma wt_sel_go : forall G k l, (fix go (l : list zexp) : Prop := match l with [] => True | e :: r => wt G e /\ fits k (zkind e) /\ go r end) l <-> Forall (fun e => wt G e /\ fits k (zkind e)) l.
Proof. intros G k. induction l as [|e l IH]; [split; auto|]. split; [intros [A [B C]]|intros H; inversion H]; [constructor; tauto|split; tauto]. Qed.
Lemma uo_sel_go : forall M l, (fix go (l : list zexp) : option (list zexp) := match l with [] => Some [] | a :: r => obind (uo M a) (fun b => obind (go r) (fun s => Some (b :: s))) end) l = mapO (uo M) l.
Proof. intros M l. reflexivity. Qed.
Lemma mapO_some : forall A B (f : A -> option B) l l', Forall2 (fun a b => f a = Some b) l l' -> mapO f l = Some l'.
Proof. intros A B f l l' H. induction H as [|a b l l' H _ IH]; [reflexivity|]. change (obind (f a) (fun b => obind (mapO f l) (fun s => Some (b :: s))) = Some (b :: l')). rewrite H, IH. reflexivity. Qed.
Lemma forall_ex : forall A B (P : A -> B -> Prop) l, Forall (fun a => exists b, P a b) l -> exists l', Forall2 P l l'.
Proof. intros A B P l H. induction H as [|a l [b Hb] _ [l' Hl]]; [exists []; constructor|]. exists (b :: l'). constructor; auto. Qed.
Lemma F2_impl : forall A B (P Q : A -> B -> Prop) l l', (forall a b, P a b -> Q a b) -> Forall2 P l l' -> Forall2 Q l l'.
Proof. intros A B P Q l l' H F. induction F; constructor; auto. Qed.
Lemma umaxs_ok : forall es, Forall (fun e => exists a, uann e = Some a /\ fval (umax a) <= mu) es -> es <> [] ->
  exists m, umaxs es = Some m /\ fval m <= mu /\ Forall (fun e => exists a, uann e = Some a /\ fval (umax a) <= fval m) es.
Proof.
  intros es H Hn. set (f := fun e m => Z.max (match zkind e with KU a => fval (umax a) | _ => 0 end) m).
  assert (Hb : 0 <= fold_right f 0 es <= mu).
  { clear Hn. induction H as [|e es [a [Ha Hm]] _ IH]; cbn [fold_right]; [unfold mu; pose proof (pow2_pos (required_bits - 1)); lia|].
    unfold f at 1 3. apply kind_KU in Ha. rewrite Ha. pose proof (fval_range (umax a)). lia. }
  exists (of_Z (fold_right f 0 es)). pose proof mu_lt.
  assert (Ev : fval (of_Z (fold_right f 0 es) : F) = fold_right f 0 es) by (apply fval_of_Z_small; lia).
  split; [destruct es; [contradiction|reflexivity]|]. rewrite Ev. split; [lia|]. clear Hb Ev Hn.
  induction H as [|e es [a [Ha Hm]] _ IH]; constructor.
  - exists a. split; auto. cbn [fold_right]. unfold f at 1. apply kind_KU in Ha. rewrite Ha. lia.
  - eapply Forall_impl; [|exact IH]. intros e' [a' [A B]]. exists a'. split; auto. cbn [fold_right]. unfold f at 1. lia.
Qed.
Lemma reflag_bound : forall b a, ubound (reflag (sr b) a) <= fval (umax a).
Proof. intros b a. unfold ubound, reflag. destruct b; cbn; lia. Qed.

Lemma shl_bound : forall w k m, wid w -> 0 <= m -> shl_ok w k m ->
  Z.min (Z.min m (pow2 w - 1) * pow2 k) (pow2 w - pow2 (Nat.min k w)) <= (m * pow2 k) mod pow2 w.
Proof.
  intros w k m Hw Hm [H|H]; pose proof (pow2_pos w); pose proof (pow2_pos k).
  - rewrite Z.mod_small by nia. nia.
  - assert (E : (m * pow2 k) mod pow2 w = ((pow2 w - 1) * pow2 k) mod pow2 w) by (rewrite <- Z.mul_mod_idemp_l, H by lia; auto).
    rewrite E. replace ((pow2 w - 1) * pow2 k) with (- pow2 k + pow2 k * pow2 w) by ring. rewrite Z.mod_add by lia.
    destruct (Nat.le_gt_cases w k) as [L|L].
    + rewrite Nat.min_r by lia. replace (pow2 k) with (pow2 (k - w) * pow2 w) at 2 by (rewrite <- pow2_add; f_equal; lia).
      rewrite <- Z.mul_opp_l, Z.mod_mul by lia. lia.
    + rewrite Nat.min_l by lia. rewrite (Z.mod_opp_l_nz (pow2 k) (pow2 w)) by (try lia; rewrite Z.mod_small; pose proof (pow2_lt k w L); lia).
      rewrite Z.mod_small by (pose proof (pow2_lt k w L); lia). lia.
Qed.
Lemma shr_bound : forall w k m, wid w -> 0 <= m -> shr_ok w m -> Z.min m (pow2 w - 1) / pow2 k <= (m mod pow2 w) / pow2 k.
Proof.
  intros w k m Hw Hm H. apply Z.div_le_mono; [apply pow2_pos|]. destruct H as [H|H]; [rewrite Z.mod_small by lia; lia|lia].
Qed.

Ltac getr H e' := destruct H as [e' [? [? [? [? [? ?]]]]]].
Ltac setk H := unfold uok, annP; rewrite (set_kind _ _ _ H).

(** the shifted expression of an operand of a bitwise operator *)
Lemma uo_shift : forall M e l, uo M e = Some l -> match l with ZShl _ _ _ => exists a e0 k, e = ZShl a e0 k | ZShr _ _ _ => exists a e0 k, e = ZShr a e0 k | _ => True end.
Proof.
  intros M e l H. destruct l; try exact I; destruct e; eauto; exfalso; cbn [uo] in H;
    repeat (unfold obind, oassert in H; match type of H with context [match ?x with _ => _ end] => destruct x; try discriminate H end); discriminate H.
Qed.
Lemma operand_ok : forall S M G e w l al, has_ty S e (PU_ w) -> rel S M G -> uo M e = Some l -> uann l = Some al -> (max_ok l -> wt G l) ->
  sub_ (fun e => forall S M G t, has_ty S e t -> rel S M G -> uo_res M G e t) e ->
  mopw UXor max_ok (set_ann (reflag SRTrue al) l) -> opnd (wt G) (set_ann (reflag SRTrue al) l).
Proof.
  intros S M G e w l al T R E A W Hs X. pose proof (uo_shift _ _ _ E) as Hsh.
  assert (N : max_ok l -> wt G (set_ann (reflag SRTrue al) l)) by (intros Y; apply set_wt; auto). pose proof (set_max l al SRTrue A) as Y.
  destruct l as [| | |kk ?| | | | | |? ? ? ?|? ?|b l0 k0|b l0 k0|kk ? ? ?|kk ? ?]; try destruct kk; cbn [set_ann mopw opnd] in *; auto.
  - destruct Hsh as [a [e0 [k ->]]]. cbn [sub_ has_ty] in *. destruct T as [Et [Hw [H32 T1]]]. destruct (Hs _ _ _ _ T1 R) as [e' [H0 [H1 [H2 [H3 [H4 H5]]]]]].
    destruct (force_ok true e' _ H2 H1) as [ae [A1 [A2 [A3 [_ A4]]]]]. cbn [force] in A4. cbn [uo] in E. rewrite !wid_range in E by auto. cbn [oassert andb] in E. rewrite H0 in E. cbn [obind] in E. rewrite A1 in E. cbn [obind] in E. rewrite A4 in E. cbn [obind] in E. injection E as Eb El Ek. subst b l0 k0.
    cbn [uann zkind] in A. injection A as <-. cbn [reflag with_max uw umax].
    pose proof (fval_range (umax ae)) as Hr. pose proof (pow2_pos k) as Hpk. pose proof (pow2_pos (uw a)) as Hpa. pose proof (mu_wid _ Hw) as Hmw. pose proof mu_lt as Hmu.
    rewrite land_ones by nia. pose proof (Z.mod_pos_bound (fval (umax ae) * pow2 k) (pow2 (uw a)) Hpa) as Hb.
    assert (Ef : fval (of_Z ((fval (umax ae) * pow2 k) mod pow2 (uw a)) : F) = (fval (umax ae) * pow2 k) mod pow2 (uw a)) by (apply fval_of_Z_small; lia).
    split; [apply mk_ann_ok; auto; cbn [umax with_max]; rewrite Ef; lia|]. split; [reflexivity|]. split; [apply set_wt; eauto using set_max|]. eexists. split; [apply (set_kind _ _ _ A1)|].
    cbn [reflag uw umax]. split; [congruence|]. split; [reflexivity|]. exact Ef.
  - destruct Hsh as [a [e0 [k ->]]]. cbn [sub_ has_ty] in *. destruct T as [Et [Hw [H32 T1]]]. destruct (Hs _ _ _ _ T1 R) as [e' [H0 [H1 [H2 [H3 [H4 H5]]]]]].
    destruct (force_ok true e' _ H2 H1) as [ae [A1 [A2 [A3 [_ A4]]]]]. cbn [force] in A4. cbn [uo] in E. rewrite !wid_range in E by auto. cbn [oassert andb] in E. rewrite H0 in E. cbn [obind] in E. rewrite A1 in E. cbn [obind] in E. rewrite A4 in E. cbn [obind] in E. injection E as Eb El Ek. subst b l0 k0.
    cbn [uann zkind] in A. injection A as <-. cbn [reflag with_max uw umax].
    pose proof (fval_range (umax ae)) as Hr. pose proof (pow2_pos k) as Hpk. pose proof (pow2_pos (uw a)) as Hpa. pose proof (mu_wid _ Hw) as Hmw. pose proof mu_lt as Hmu.
    rewrite land_ones by lia. pose proof (Z.mod_pos_bound (fval (umax ae)) (pow2 (uw a)) Hpa) as Hb.
    assert (Hq : 0 <= fval (umax ae) mod pow2 (uw a) / pow2 k <= mu) by (split; [apply Z.div_pos; lia|apply Z.div_le_upper_bound; nia]).
    assert (Ef : fval (of_Z (fval (umax ae) mod pow2 (uw a) / pow2 k) : F) = fval (umax ae) mod pow2 (uw a) / pow2 k) by (apply fval_of_Z_small; lia).
    split; [apply mk_ann_ok; auto; cbn [umax with_max]; rewrite Ef; lia|]. split; [reflexivity|]. split; [apply set_wt; eauto using set_max|]. eexists. split; [apply (set_kind _ _ _ A1)|].
    cbn [reflag uw umax]. split; [congruence|]. split; [reflexivity|]. exact Ef.
Qed.
Theorem uo_ok : forall e S M G t, has_ty S e t -> rel S M G -> uo_res M G e t.
Proof.
  induction e using zexp_sub_ind; intros S M G t T R; cbn [has_ty] in T.
  - subst t. exists (ZFVal c). cbn. repeat split; auto.
  - subst t. exists (ZBVal b). cbn. repeat split; auto.
  - destruct T as [-> [Hw Hn]]. eexists. cbn [uo]. rewrite wid_range by auto. split; [reflexivity|]. pose proof (wid_pow _ Hw). pose proof mu_lt.
    assert (E : fval (of_Z n : F) = n) by (apply fval_of_Z_small; nia).
    cbn [zkind kty with_max uw]. split; auto. split; [unfold uok, annP; cbn [zkind ured umax uw with_max]; split; [congruence|split; [rewrite E; nia|exact Hw]]|]. split; auto. split; auto.
    intros _. cbn [wt with_max uw umax]. rewrite E. split; [apply mk_ann_ok; auto; rewrite E; nia|lia].
  - destruct T as [-> [Hs Hw]]. specialize (R _ _ Hs). destruct k as [| |a]; cbn [kty] in *.
    + exists (ZId KF x). cbn. repeat split; auto. exists KF. cbn. auto.
    + exists (ZId KB x). cbn. repeat split; auto. exists KB. cbn. auto.
    + destruct R as [m [k' [HM [Hwm [Hr [Hm [HG Hf]]]]]]]. exists (ZId (KU m) x). cbn [uo]. cbn [tywid] in Hw. rewrite wid_range by auto. cbn [oassert]. rewrite HM. cbn [obind].
      split; auto. cbn [zkind kty]. split; [congruence|]. split; [unfold uok, annP; cbn; rewrite Hr, Hwm; repeat split; try congruence; try apply Hw; auto|].
      split; auto. split; auto. intros _. cbn [wt]. split; [cbn; destruct m; cbn in *; subst; apply mk_ann_ok; auto|]. exists k'; auto.
  - destruct T as [-> [T1 T2]]. getr (IHe1 _ _ _ _ T1 R) l. getr (IHe2 _ _ _ _ T2 R) r.
    exists (ZFBin op l r). cbn [uo]. rewrite H, H5. cbn. split; auto. split; auto. split; [exact I|]. split; [intros rho; cbn; rewrite H2, H8; auto|]. split; auto.
    intros [A B]. split; auto. split; auto. destruct (zkind l), (zkind r); try discriminate; auto.
  - destruct T as [-> T1]. getr (IHe _ _ _ _ T1 R) l. exists (ZPow l n). cbn [uo]. rewrite H. cbn. split; auto. split; auto. split; [exact I|]. split; [intros rho; cbn; rewrite H2; auto|]. split; auto.
    intros A. split; auto. destruct (zkind l); try discriminate; auto.
  - destruct T as [-> T].
    assert (HF : has_ty S e1 PF_ /\ has_ty S e2 PF_ -> match op with CFLt | CFLe | CFEq => True | _ => False end -> uo_res M G (ZCmp op e1 e2) PB_).
    { intros [T1 T2] Hop. getr (IHe1 _ _ _ _ T1 R) l. getr (IHe2 _ _ _ _ T2 R) r.
      exists (ZCmp op l r). cbn [uo]. rewrite H, H5. cbn [obind]. split; [destruct op; try contradiction; auto|]. split; auto. split; [exact I|].
      split; [intros rho; cbn [sem]; rewrite H2, H8; unfold fcmp_defined; rewrite H3, H9; auto|]. split; auto.
      intros [A B]. cbn [wt]. split; auto. split; auto. destruct (zkind l), (zkind r); try discriminate; destruct op; try contradiction; auto. }
    assert (HU : (exists w, wid w /\ has_ty S e1 (PU_ w) /\ has_ty S e2 (PU_ w)) -> match op with CULt | CULe | CUEq => True | _ => False end -> uo_res M G (ZCmp op e1 e2) PB_).
    { intros [w [Hw [T1 T2]]] Hop. getr (IHe1 _ _ _ _ T1 R) l. getr (IHe2 _ _ _ _ T2 R) r.
      destruct (force_ok true l w H1 H0) as [al [A1 [A2 [A3 [_ A4]]]]]. destruct (force_ok true r w H7 H6) as [ar [B1 [B2 [B3 [_ B4]]]]]. cbn [force] in *.
      exists (ZCmp op (set_ann (reflag (sr true) al) l) (set_ann (reflag (sr true) ar) r)). cbn [uo]. rewrite H, H5. cbn [obind]. rewrite A4, B4. cbn [obind].
      split; [destruct op; try contradiction; auto|]. split; auto. split; [exact I|].
      split; [intros rho; cbn [sem]; rewrite !set_sem, H2, H8 by auto; unfold fcmp_defined; rewrite !set_lit, H3, H9 by auto; auto|]. split; auto.
      intros [A B]. cbn [wt]. split; [apply set_wt; eauto using set_max|]. split; [apply set_wt; eauto using set_max|].
      rewrite (set_kind _ _ _ A1), (set_kind _ _ _ B1). destruct op; try contradiction; (eexists _, _; split; [reflexivity|]; split; [reflexivity|]; cbn; unfold redT; cbn; split; [congruence|auto]). }
    destruct op; [apply HF|apply HF|apply HF|apply HU|apply HU|apply HU]; auto.
  - destruct T as [-> [T1 T2]]. getr (IHe1 _ _ _ _ T1 R) l. getr (IHe2 _ _ _ _ T2 R) r.
    exists (ZBBin op l r). cbn [uo]. rewrite H, H5. cbn. split; auto. split; auto. split; [exact I|]. split; [intros rho; cbn; rewrite H2, H8; auto|]. split; auto.
    intros [A B]. split; auto. split; auto. destruct (zkind l), (zkind r); try discriminate; auto.
  - destruct T as [-> T1]. getr (IHe _ _ _ _ T1 R) l. exists (ZBNot l). cbn [uo]. rewrite H. cbn. split; auto. split; auto. split; [exact I|]. split; [intros rho; cbn; rewrite H2; auto|]. split; auto.
    intros A. split; auto. destruct (zkind l); try discriminate; auto.
  - rename H into Sb1, H0 into Sb2. destruct T as [-> [Hw [T1 T2]]]. getr (IHe1 _ _ _ _ T1 R) l. getr (IHe2 _ _ _ _ T2 R) r. cbn [uo]. unfold uo_res. cbn [uo]. rewrite wid_range by auto. cbn [oassert]. rewrite H, H5. cbn [obind].
    destruct (uok_u _ _ H1 H0) as [al [A1 [A2 [A3 [A4 _]]]]]. destruct (uok_u _ _ H7 H6) as [ar [B1 [B2 [B3 [B4 _]]]]].
    destruct (choose_ok op (uw a) al ar Hw A2 B2 A4 B4) as [bl [br [m [C1 [C2 C3]]]]]. rewrite A1, B1. cbn [obind]. rewrite C1. cbn [obind fst snd].
    destruct (force_ok bl l (uw a) H1 H0) as [al' [A1' [_ [_ [_ A5]]]]]. rewrite A1 in A1'. injection A1' as <-.
    destruct (force_ok br r (uw a) H7 H6) as [ar' [B1' [_ [_ [_ B5]]]]]. rewrite B1 in B1'. injection B1' as <-. rewrite A5, B5. cbn [obind].
    eexists. split; [reflexivity|]. cbn [zkind kty with_max uw]. split; auto. split; [unfold uok, annP; cbn; split; [congruence|auto]|].
    split; [intros rho; cbn [sem uw]; rewrite !set_sem, H2, H8 by auto; auto|]. split; auto.
    cbn [max_ok wt]. intros [X [Y Z]]. split; [apply mk_ann_ok; auto|].
    assert (Hop : forall b al e l (Ha : uann l = Some al), has_ty S e (PU_ (uw a)) -> uo M e = Some l -> (max_ok l -> wt G l) ->
      sub_ (fun e => forall S M G t, has_ty S e t -> rel S M G -> uo_res M G e t) e -> (match op with UXor | UAnd | UOr => b = true | _ => True end) ->
      mopw op max_ok (set_ann (reflag (sr b) al) l) -> opw op (wt G) (set_ann (reflag (sr b) al) l)).
    { intros b al0 e l0 Ha0 T0 E0 W0 S0 B0 X0. destruct op; cbn [opw]; try (cbn [mopw] in X0; apply set_wt; eauto using set_max; fail); subst b; eapply operand_ok; eauto. }
    assert (Hbl : match op with UXor | UAnd | UOr => bl = true /\ br = true | _ => True end) by (destruct op; auto; cbn [choose_op] in C1; injection C1 as <- <- _; auto).
    split; [eapply (Hop bl al e1); eauto; destruct op; tauto|]. split; [eapply (Hop br ar e2); eauto; destruct op; tauto|].
    rewrite (set_kind _ _ _ A1), (set_kind _ _ _ B1). eexists _, _. split; [reflexivity|]. split; [reflexivity|]. cbn [reflag uw]. split; auto. split; auto.
    unfold reflag. rewrite A2, B2. apply C3. intros ->. unfold annP in Z. rewrite (set_kind _ _ _ B1) in Z. exact Z.
  - destruct T as [-> [Hw T1]]. getr (IHe _ _ _ _ T1 R) l. unfold uo_res. cbn [uo]. rewrite wid_range by auto. cbn [oassert]. rewrite H. cbn [obind].
    destruct (force_ok true l _ H1 H0) as [al [A1 [A2 [A3 [_ A4]]]]]. cbn [force] in A4. rewrite A4. cbn [obind].
    eexists. split; [reflexivity|]. cbn [zkind kty with_max uw]. split; auto. split; [unfold uok, annP; cbn [zkind ured umax uw with_max]; split; [congruence|]; split; auto; rewrite fval_rm by auto; apply mu_wid; auto|].
    split; [intros rho; cbn [sem uw]; rewrite !set_sem, H2 by auto; auto|]. split; auto. cbn [max_ok wt]. intros X.
    split; [apply mk_ann_ok; auto; rewrite fval_rm by auto; apply mu_wid; auto|]. split; [apply set_wt; eauto using set_max|].
    split; [exists (reflag (sr true) al); split; [apply (set_kind _ _ _ A1)|auto]|]. cbn [umax uw with_max]. rewrite fval_rm by auto. lia.
  - destruct T as [-> [Hw [H32 T1]]]. getr (IHe _ _ _ _ T1 R) l. unfold uo_res. cbn [uo]. rewrite !wid_range by auto. cbn [oassert andb]. rewrite H. cbn [obind].
    destruct (force_ok true l _ H1 H0) as [al [A1 [A2 [A3 [_ A4]]]]]. cbn [force] in A4. rewrite A1. cbn [obind]. rewrite A4. cbn [obind].
    pose proof (fval_range (umax al)) as Hr. pose proof (pow2_pos k) as Hpk. pose proof (pow2_pos (uw a)) as Hpa. pose proof (mu_wid _ Hw) as Hmw. pose proof mu_lt as Hmu.
    rewrite land_ones by nia. pose proof (Z.mod_pos_bound (fval (umax al) * pow2 k) (pow2 (uw a)) Hpa) as Hb.
    assert (E : fval (of_Z ((fval (umax al) * pow2 k) mod pow2 (uw a)) : F) = (fval (umax al) * pow2 k) mod pow2 (uw a)) by (apply fval_of_Z_small; lia).
    eexists. split; [reflexivity|]. cbn [zkind kty with_max uw]. split; auto. split; [unfold uok, annP; cbn [zkind ured umax uw with_max]; split; [congruence|]; split; auto; rewrite E; lia|].
    split; [intros rho; cbn [sem uw]; rewrite !set_sem, H2 by auto; auto|]. split; auto. cbn [max_ok wt]. intros [X Y]. unfold annP in Y. rewrite (set_kind _ _ _ A1) in Y. cbn [uw umax reflag with_max] in *.
    split; [apply mk_ann_ok; auto; rewrite E; lia|]. split; [apply set_wt; eauto using set_max|]. eexists. split; [apply (set_kind _ _ _ A1)|]. split; auto.
    rewrite E. unfold ubound. cbn [ured sr reflag uw umax with_max]. rewrite A2. apply shl_bound; auto; lia.
  - destruct T as [-> [Hw [H32 T1]]]. getr (IHe _ _ _ _ T1 R) l. unfold uo_res. cbn [uo]. rewrite !wid_range by auto. cbn [oassert andb]. rewrite H. cbn [obind].
    destruct (force_ok true l _ H1 H0) as [al [A1 [A2 [A3 [_ A4]]]]]. cbn [force] in A4. rewrite A1. cbn [obind]. rewrite A4. cbn [obind].
    pose proof (fval_range (umax al)) as Hr. pose proof (pow2_pos k) as Hpk. pose proof (pow2_pos (uw a)) as Hpa. pose proof (mu_wid _ Hw) as Hmw. pose proof mu_lt as Hmu.
    rewrite land_ones by lia. pose proof (Z.mod_pos_bound (fval (umax al)) (pow2 (uw a)) Hpa) as Hb.
    assert (Hq : 0 <= fval (umax al) mod pow2 (uw a) / pow2 k <= mu) by (split; [apply Z.div_pos; lia|apply Z.div_le_upper_bound; nia]).
    assert (E : fval (of_Z (fval (umax al) mod pow2 (uw a) / pow2 k) : F) = fval (umax al) mod pow2 (uw a) / pow2 k) by (apply fval_of_Z_small; lia).
    eexists. split; [reflexivity|]. cbn [zkind kty with_max uw]. split; auto. split; [unfold uok, annP; cbn [zkind ured umax uw with_max]; split; [congruence|]; split; auto; rewrite E; lia|].
    split; [intros rho; cbn [sem uw]; rewrite !set_sem, H2 by auto; auto|]. split; auto. cbn [max_ok wt]. intros [X Y]. unfold annP in Y. rewrite (set_kind _ _ _ A1) in Y. cbn [uw umax reflag with_max] in *.
    split; [apply mk_ann_ok; auto; rewrite E; lia|]. split; [apply set_wt; eauto using set_max|]. eexists. split; [apply (set_kind _ _ _ A1)|]. split; auto.
    rewrite E. unfold ubound. cbn [ured sr reflag uw umax with_max]. rewrite A2. apply shr_bound; auto; lia.
  - destruct T as [-> [Hw [T1 [T2 T3]]]]. getr (IHe1 _ _ _ _ T1 R) c. getr (IHe2 _ _ _ _ T2 R) x. getr (IHe3 _ _ _ _ T3 R) y.
    unfold uo_res. cbn [uo]. rewrite H, H5, H11. cbn [obind].
    assert (Kc : zkind c = KB) by (destruct (zkind c); try discriminate; auto).
    assert (Hk : match k with KU _ => False | _ => True end -> exists e', match k with KU _ => Some (ZCond k c x y) | _ => Some (ZCond k c x y) end = Some e' /\ kty (zkind e') = kty k /\ uok e' /\
      (forall rho, sem rho e' = sem rho (ZCond k e1 e2 e3)) /\ is_lit e' = is_lit (ZCond k e1 e2 e3) /\ (max_ok e' -> wt G e')).
    { intros Hk. exists (ZCond k c x y). split; [destruct k; auto|]. split; auto. split; [unfold uok, annP; cbn; destruct k; auto; contradiction|].
      split; [intros rho; cbn [sem]; rewrite H2, H8, H14; auto|]. split; auto. cbn [max_ok wt]. intros [X [Y Z]]. split; [destruct k; cbn; auto; contradiction|].
      split; auto. split; auto. split; auto. split; auto. destruct k; try contradiction; destruct (zkind x), (zkind y); try discriminate; cbn; auto. }
    destruct k as [| |a]; [apply Hk; exact I|apply Hk; exact I|]. clear Hk. cbn [kty tywid] in *. rewrite wid_range by auto. cbn [oassert].
    destruct (force_ok false x _ H7 H6) as [ax [A1 [A2 [A3 [_ A4]]]]]. destruct (force_ok false y _ H13 H12) as [ay [B1 [B2 [B3 [_ B4]]]]]. cbn [force] in *. rewrite A4, B4. cbn [obind].
    destruct (umaxs_ok [set_ann (reflag (sr false) ax) x; set_ann (reflag (sr false) ay) y]) as [m [M1 [M2 M3]]]; [|discriminate|].
    { repeat constructor; eexists; (split; [apply kind_KU; first [apply (set_kind _ _ _ A1)|apply (set_kind _ _ _ B1)]|auto]). }
    rewrite M1. cbn [obind]. eexists. split; [reflexivity|]. cbn [zkind kty with_max uw]. split; auto. split; [unfold uok, annP; cbn; split; [congruence|auto]|].
    split; [intros rho; cbn [sem]; rewrite !set_sem, H2, H8, H14 by auto; auto|]. split; auto. cbn [max_ok wt]. intros [X [Y Z]].
    split; [apply mk_ann_ok; auto|]. split; auto. split; [apply set_wt; eauto using set_max|]. split; [apply set_wt; eauto using set_max|]. split; auto.
    inversion M3 as [|? ? [a1 [C1 C2]] M4]; subst. inversion M4 as [|? ? [a2 [D1 D2]] _]; subst. apply kind_KU in C1, D1.
    rewrite (set_kind _ _ _ A1) in C1. rewrite (set_kind _ _ _ B1) in D1. injection C1 as <-. injection D1 as <-.
    rewrite (set_kind _ _ _ A1), (set_kind _ _ _ B1). split; (eexists; split; [reflexivity|]; split; [auto|]); unfold ubound; cbn [ured sr reflag umax uw with_max] in *; auto.
  - destruct T as [-> [Hw [H32 [T1 [Hn [Hl T2]]]]]]. apply has_sel_go in T2. getr (IHe _ _ _ _ T1 R) i.
    assert (Hes : exists es', Forall2 (fun e e' => uo M e = Some e' /\ kty (zkind e') = kty k /\ uok e' /\ (forall rho, sem rho e' = sem rho e) /\ (max_ok e' -> wt G e')) es es').
    { apply forall_ex. apply Forall_forall. intros e1 Hin. rewrite Forall_forall in H, T2. destruct (H e1 Hin _ _ _ _ (T2 e1 Hin) R) as [e' [A [B [C [D [_ F]]]]]]. exists e'. auto. }
    destruct Hes as [es' Hes]. unfold uo_res. cbn [uo]. rewrite uo_sel_go. rewrite (mapO_some _ _ _ es es') by (eapply F2_impl; [|exact Hes]; intros ? ? X; apply X). cbn [obind].
    rewrite H0. cbn [obind]. destruct (force_ok true i _ H2 H1) as [ai [A1 [A2 [A3 [_ A4]]]]]. cbn [force] in A4. rewrite A4. cbn [obind].
    pose proof (f2_length Hes) as Hlen.
    assert (Hsem : forall rho, opt_list (map (sem rho) es') = opt_list (map (sem rho) es)).
    { intros rho. f_equal. clear - Hes. induction Hes as [|e e' es es' X _ IH]; cbn [map]; auto. destruct X as [_ [_ [_ [X _]]]]. rewrite X, IH. auto. }
    assert (Hi : forall k' es2, (max_ok (ZSel k' es2 (set_ann (reflag (sr true) ai) i)) -> kind_ok k' /\ Z.of_nat (length es2) <= pow2 32 /\ Forall (fun e => wt G e /\ fits k' (zkind e)) es2) ->
       max_ok (ZSel k' es2 (set_ann (reflag (sr true) ai) i)) -> wt G (ZSel k' es2 (set_ann (reflag (sr true) ai) i))).
    { intros k' es2 X Y. destruct (X Y) as [X1 [X2 X3]]. cbn [wt]. split; auto. destruct Y as [Y _]. split; [apply set_wt; eauto using set_max|].
      split; [eexists; split; [apply (set_kind _ _ _ A1)|]; split; [auto|reflexivity]|]. split; auto. apply wt_sel_go. auto. }
    assert (Hk : match k with KU _ => False | _ => True end -> exists e', Some (ZSel k es' (set_ann (reflag (sr true) ai) i)) = Some e' /\ kty (zkind e') = kty k /\ uok e' /\
      (forall rho, sem rho e' = sem rho (ZSel k es e)) /\ is_lit e' = is_lit (ZSel k es e) /\ (max_ok e' -> wt G e')).
    { intros Hk. eexists. split; [reflexivity|]. split; auto. split; [unfold uok, annP; cbn; destruct k; auto; contradiction|].
      split; [intros rho; cbn [sem]; rewrite set_sem, H3, Hsem by auto; auto|]. split; auto. apply Hi. intros [_ Y]. apply max_sel_go in Y.
      split; [destruct k; cbn; auto; contradiction|]. split; [congruence|]. clear - Hk Y Hes. induction Hes as [|e e' es es' X _ IH]; inversion Y; subst; constructor; auto.
      split; [apply X; auto|]. destruct X as [_ [X _]]. destruct k; try contradiction; destruct (zkind e'); try discriminate; reflexivity. }
    destruct k as [| |a]; [apply Hk; exact I|apply Hk; exact I|]. clear Hk. cbn [kty tywid] in *. rewrite wid_range by auto. cbn [oassert].
    assert (He2 : exists es2, Forall2 (fun e e2 => force_no_reduce e = Some e2 /\ exists a', uann e = Some a' /\ uw a' = uw a /\ fval (umax a') <= mu /\ e2 = set_ann (reflag SRFalse a') e) es' es2).
    { apply forall_ex. clear - Hes. induction Hes as [|e e' es es' X _ IH]; constructor; auto. destruct X as [_ [X1 [X2 _]]].
      destruct (force_ok false e' _ X2 X1) as [a' [B1 [B2 [B3 [_ B4]]]]]. eexists. split; [exact B4|]. exists a'. auto. }
    destruct He2 as [es2 He2]. rewrite (mapO_some _ _ _ es' es2) by (eapply F2_impl; [|exact He2]; intros ? ? X; apply X). cbn [obind].
    destruct (umaxs_ok es2) as [m [M1 [M2 M3]]].
    { clear - He2. induction He2 as [|e e' es es' [_ [a' [X1 [X2 [X3 ->]]]]] _ IH]; constructor; auto. eexists. split; [apply kind_KU, (set_kind _ _ _ X1)|auto]. }
    { intros ->. inversion He2; subst. inversion Hes; subst. auto. }
    rewrite M1. cbn [obind]. eexists. split; [reflexivity|]. cbn [zkind kty with_max uw]. split; auto. split; [unfold uok, annP; cbn; split; [congruence|auto]|].
    split.
    { intros rho. cbn [sem]. rewrite set_sem, H3 by auto. rewrite <- Hsem. destruct (sem rho e) as [[| |n]|]; auto.
      replace (map (sem rho) es2) with (map (sem rho) es'); auto. clear - He2. induction He2 as [|e e' es es' [_ [a' [X1 [_ [_ ->]]]]] _ IH]; cbn [map]; auto. rewrite set_sem by auto. congruence. }
    split; auto. apply Hi. intros [_ Y]. apply max_sel_go in Y. split; [apply mk_ann_ok; auto|]. pose proof (f2_length He2). split; [congruence|].
    clear - He2 Hes Y M3. revert es Hes. induction He2 as [|e e' es es' [_ [a' [X1 [X2 [_ ->]]]]] _ IH]; intros es0 Hes; inversion Hes as [|? ? ? ? HX HXr]; subst; inversion Y as [|? ? Y1 Y2]; subst; inversion M3 as [|? ? Z1 Z2]; subst; constructor; eauto.
    destruct HX as [_ [_ [_ [_ HW]]]]. split; [apply set_wt; auto; apply HW; eapply set_max; eauto|].
    destruct Z1 as [a2 [C1 C2]]. apply kind_KU in C1. rewrite (set_kind _ _ _ X1) in *. injection C1 as <-. eexists. split; [reflexivity|]. split; auto.
Qed.

(** ** Statements *)
Definition rel2 (S : senv) (M : menv) (G : tenv) : Prop := rel S M G /\ forall x, S x = None -> G x = None.
Definition knd (t : ptype) (k : kind) : Prop :=
  match t with PF_ => k = KF | PB_ => k = KB | PU_ _ => True end.
Lemma rel2_upd : forall S M G x t k, rel2 S M G -> (forall w, t <> PU_ w) -> knd t k -> rel2 (supd S x t) M (tupd G x k).
Proof.
  intros S M G x t k [R F] Ht Hk. split.
  - intros y t' Hy. unfold supd in Hy. unfold tupd. destruct (Z.eqb_spec y x) as [->|N].
    + injection Hy as <-. destruct t; cbn in Hk; subst; auto. exfalso; eapply Ht; eauto.
    + apply R in Hy. destruct t'; auto.
  - intros y Hy. unfold supd in Hy. unfold tupd. destruct (Z.eqb_spec y x); [discriminate|auto].
Qed.
Lemma rel2_reg : forall S M G x w m k, rel2 S M G -> uw m = w -> ured m = SRFalse -> fval (umax m) <= mu -> fits (KU m) k ->
  rel2 (supd S x (PU_ w)) (mreg M x w m) (tupd G x k).
Proof.
  intros S M G x w m k [R F] Hw Hr Hm Hf. split.
  - intros y t' Hy. unfold supd in Hy. unfold tupd. destruct (Z.eqb_spec y x) as [->|N].
    + injection Hy as <-. exists m, k. unfold mreg. rewrite Z.eqb_refl, Nat.eqb_refl. cbn. auto 10.
    + apply R in Hy. destruct t' as [| |w']; auto. destruct Hy as [m' [k' H]]. exists m', k'. unfold mreg. destruct (Z.eqb_spec y x); [contradiction|]. exact H.
  - intros y Hy. unfold supd in Hy. unfold tupd. destruct (Z.eqb_spec y x); [discriminate|auto].
Qed.
Lemma rel2_upds : forall n S M G xs, rel2 S M G -> length xs = n -> rel2 (supds S xs (repeat PB_ n)) M (tupds G xs (repeat KB n)).
Proof.
  induction n as [|n IH]; intros S M G [|x xs] R L; try discriminate; cbn [repeat supds tupds]; auto.
  apply IH; [|injection L; auto]. apply rel2_upd; auto; [discriminate|reflexivity].
Qed.

Definition outs_res (M : menv) (G : tenv) (e : zexp) (t : ptype) (e' : zexp) : Prop :=
  uo_out M e = Some e' /\ kty (zkind e') = t /\ (forall rho, sem rho e' = sem rho e) /\ (max_ok e' -> out_ok G e').
Lemma out_res : forall S M G e t, has_ty S e t -> rel S M G -> exists e', outs_res M G e t e'.
Proof.
  intros S M G e t T R. getr (uo_ok _ _ _ _ _ T R) l. unfold outs_res, uo_out. rewrite H. cbn [obind].
  destruct (zkind l) as [| |a] eqn:K.
  - exists l. rewrite K. split; auto. split; auto. split; auto. intros X. split; auto. rewrite K. exact I.
  - exists l. rewrite K. split; auto. split; auto. split; auto. intros X. split; auto. rewrite K. exact I.
  - assert (K' : kty (zkind l) = PU_ (uw a)) by (rewrite K; reflexivity).
    destruct (force_ok true l _ H1 K') as [al [A1 [A2 [A3 [_ A4]]]]]. cbn [force] in A4. rewrite A4. eexists. split; [reflexivity|].
    rewrite (set_kind _ _ _ A1). cbn [kty reflag uw] in *. split; [congruence|]. split; [intros rho; rewrite set_sem by auto; auto|].
    intros X. split; [apply set_wt; eauto using set_max|]. rewrite (set_kind _ _ _ A1). reflexivity.
Qed.
Lemma outs_ok2 : forall S M G es ts, Forall2 (has_ty S) es ts -> rel S M G -> exists es', mapO (uo_out M) es = Some es' /\
  map (fun e => kty (zkind e)) es' = ts /\ (forall rho, sem_list rho es' = sem_list rho es) /\ (Forall max_ok es' -> Forall (out_ok G) es') /\ length es' = length es.
Proof.
  intros S M G es ts T R. induction T as [|e t es ts T _ IH]; [exists []; repeat split; auto|].
  destruct IH as [es' [A [B [C [D L]]]]]. destruct (out_res _ _ _ _ _ T R) as [e' [E1 [E2 [E3 E4]]]].
  exists (e' :: es'). split; [change (obind (uo_out M e) (fun b => obind (mapO (uo_out M) es) (fun s => Some (b :: s))) = Some (e' :: es')); rewrite E1, A; reflexivity|].
  split; [cbn; congruence|]. split; [intros rho; unfold sem_list in *; cbn [map opt_list]; rewrite E3, C; auto|]. split; [intros X; inversion X; subst; auto|cbn; congruence].
Qed.
(** non-uint arguments of built-in functions *)
Lemma args_ok : forall S M G es ts, Forall2 (has_ty S) es ts -> rel S M G -> Forall (fun t => t = PF_ \/ t = PB_) ts -> exists es', mapO (uo M) es = Some es' /\
  map zkind es' = map (fun t => match t with PF_ => KF | _ => KB end) ts /\ (forall rho, sem_list rho es' = sem_list rho es) /\ (Forall max_ok es' -> Forall (out_ok G) es').
Proof.
  intros S M G es ts T R Hn. induction T as [|e t es ts T _ IH]; [exists []; repeat split; auto|]. inversion Hn as [|? ? Hn1 Hn2]; subst.
  destruct IH as [es' [A [B [C D]]]]; auto. getr (uo_ok _ _ _ _ _ T R) l.
  assert (K : zkind l = match t with PF_ => KF | _ => KB end) by (destruct Hn1; subst; destruct (zkind l); try discriminate; auto).
  exists (l :: es'). split; [change (obind (uo M e) (fun b => obind (mapO (uo M) es) (fun s => Some (b :: s))) = Some (l :: es')); rewrite H, A; reflexivity|].
  split; [cbn; congruence|]. split; [intros rho; unfold sem_list in *; cbn [map opt_list]; rewrite H2, C; auto|]. intros X; inversion X as [|? ? X1 X2]; constructor; [|auto].
  split; [auto|]. rewrite K. clear. destruct t; exact I.
Qed.
Lemma map_kb : forall n, map (fun t => match t with PF_ => KF | _ => KB end) (repeat PB_ n) = repeat KB n.
Proof. induction n; cbn; congruence. Qed.
Lemma all_pb : forall n, Forall (fun t => t = PF_ \/ t = PB_) (repeat PB_ n).
Proof. induction n; cbn; constructor; auto. Qed.
Lemma embed_res : forall S M G xs em es, rel2 S M G -> Forall2 (has_ty S) es (embed_in em) -> embed_static em -> length xs = length (embed_out em) ->
  match em with EFromBits _ => Forall (fun x => S x = None) xs | _ => True end ->
  exists M' es', uo_stmt M (ZEmbed xs em es) = Some (M', ZEmbed xs em es') /\ (forall rho, sem_list rho es' = sem_list rho es) /\
    (Forall max_ok es' -> wts G (ZEmbed xs em es')) /\ rel2 (supds S xs (embed_out em)) M' (tupds G xs (embed_kinds em)).
Proof.
  intros S M G xs em es R T Hst L Hf. cbn [uo_stmt].
  destruct em as [|n|n|n|n]; cbn [embed_in embed_out embed_static embed_kinds] in *; cbn [obind].
  - destruct (args_ok _ _ _ _ _ T (proj1 R)) as [es' [A [B [C D]]]]; [repeat constructor|]. rewrite A. cbn [obind]. exists M, es'. split; auto. split; auto.
    split; [intros X; cbn [wts]; split; [auto|]; split; [exact B|]; split; [auto|exact I]|]. destruct xs as [|x [|]]; try discriminate. cbn. apply rel2_upd; auto; [discriminate|reflexivity].
  - destruct (outs_ok2 _ _ _ _ _ T (proj1 R)) as [es' [A [B [C [D _]]]]]. rewrite A. cbn [obind]. exists M, es'. split; auto. split; auto. rewrite repeat_length in L.
    split; [|apply rel2_upds; auto]. intros X. cbn [wts]. split; auto. split; [|split; auto; cbn; rewrite repeat_length; auto].
    destruct es' as [|e' [|]]; try discriminate. cbn in B. injection B as B. cbn [map embed_args]. destruct (zkind e') as [| |a]; try discriminate. injection B as B. exists a. auto.
  - destruct xs as [|x [|]]; try discriminate. inversion Hf as [|? ? Hf1 _]; subst. cbn [obind].
    assert (Hm : fval (umax (pmeta n)) = pow2 n - 1) by (apply (fval_rm n Hst)).
    assert (Hfit : fits (KU (pmeta n)) (KU (full_ann n))).
    { exists (full_ann n). split; auto. split; auto. unfold ubound. unfold full_ann. cbn [ured umax uw]. rewrite Hm. lia. }
    assert (R2 : rel2 (supd S x (PU_ n)) (mreg M x n (pmeta n)) (tupd G x (KU (full_ann n)))).
    { apply rel2_reg; auto. rewrite Hm. apply mu_wid; auto. }
    assert (R' : rel S (mreg M x n (pmeta n)) G).
    { intros y t Hy. pose proof (proj1 R y t Hy) as H. destruct t as [| |w]; auto. destruct H as [m [k' H]]. exists m, k'. unfold mreg. destruct (Z.eqb_spec y x); [congruence|]. exact H. }
    destruct (args_ok _ _ _ _ _ T R' (all_pb n)) as [es' [A [B [C D]]]]. rewrite A. cbn [obind]. eexists _, es'. split; [reflexivity|]. split; auto.
    split; [|cbn; exact R2]. intros X. cbn [wts]. split; auto. split; [cbn [embed_args]; destruct Hst; split; auto; split; auto; rewrite B; apply map_kb|]. split; auto.
    constructor; auto. apply R; auto.
  - destruct (args_ok _ _ _ _ _ T (proj1 R) (all_pb _)) as [es' [A [B [C D]]]]. rewrite A. cbn [obind]. exists M, es'. split; auto. split; auto.
    split; [intros X; cbn [wts]; split; [auto|]; split; [cbn [embed_args]; split; [auto|]; rewrite B; apply map_kb|]; split; [auto|exact I]|].
    destruct xs as [|x [|]]; try discriminate. cbn. apply rel2_upd; auto; [discriminate|reflexivity].
  - destruct (args_ok _ _ _ _ _ T (proj1 R)) as [es' [A [B [C D]]]]; [repeat constructor|]. rewrite A. cbn [obind]. exists M, es'. split; auto. split; auto. rewrite repeat_length in L.
    split; [|apply rel2_upds; auto]. intros X. cbn [wts]. split; auto. split; [cbn [embed_args]; split; auto|]. split; auto; cbn; rewrite repeat_length; auto.
Qed.
Lemma max_stmt_go : forall l, (fix go (l : list zstmt) : Prop := match l with [] => True | s :: r => max_ok_stmt s /\ go r end) l <-> Forall max_ok_stmt l.
Proof. induction l as [|e l IH]; [split; auto|]. split; [intros [A B]|intros H; inversion H]; [constructor; tauto|split; tauto]. Qed.
Definition stmt_res (s : zstmt) : Prop := forall S M G S', sty_stmt S s S' -> rel2 S M G ->
  exists M' s', uo_stmt M s = Some (M', s') /\ (forall o, sem_stmt o s' = sem_stmt o s) /\ (max_ok_stmt s' -> wts G s') /\ rel2 S' M' (tpost G s').
Lemma stmts_res : forall l, Forall stmt_res l -> forall S M G S', sty_stmts S l S' -> rel2 S M G ->
  exists M' l', uo_stmts M l = Some (M', l') /\ (forall o, sem_stmts o l' = sem_stmts o l) /\ (Forall max_ok_stmt l' -> wtss G l') /\ rel2 S' M' (fold_left tpost l' G).
Proof.
  intros l Hl. induction Hl as [|s l Hs _ IH]; intros S M G S' T R; inversion T as [|? ? ? S1 ? T1 T2]; subst; clear T.
  - exists M, []. repeat split; auto; apply R.
  - destruct (Hs _ _ _ _ T1 R) as [M1 [s1 [A [B [C D]]]]]. destruct (IH _ _ _ _ T2 D) as [M2 [l2 [A2 [B2 [C2 D2]]]]].
    exists M2, (s1 :: l2). cbn [uo_stmts]. rewrite A. cbn [obind fst snd]. rewrite A2. split; auto. split; [intros o; cbn [sem_stmts]; rewrite B; destruct (sem_stmt o s); auto|].
    split; [intros X; inversion X; subst; cbn; auto|exact D2].
Qed.
Lemma uo_stmts_go : forall M l, (fix go (M : menv) (l : list zstmt) : option (menv * list zstmt) :=
  match l with [] => Some (M, []) | s :: r => obind (uo_stmt M s) (fun p => obind (go (fst p) r) (fun q => Some (fst q, snd p :: snd q))) end) M l = uo_stmts M l.
Proof. intros M l. reflexivity. Qed.
Lemma uo_stmt_ok : forall s, stmt_res s.
Proof.
  induction s using zstmt_ind'; intros S M G S' T R; inversion T; subst; clear T.
  - match goal with X : Forall2 _ _ _ |- _ => destruct (outs_ok2 _ _ _ _ _ X (proj1 R)) as [es' [A [B [C [D _]]]]] end.
    exists M, (ZReturn es'). cbn [uo_stmt]. rewrite A. split; auto. split; [intros o; cbn [sem_stmt]; rewrite C; auto|]. split; auto.
  - match goal with X : has_ty _ _ _ |- _ => getr (uo_ok _ _ _ _ _ X (proj1 R)) l; rename t into ty end. cbn [uo_stmt]. unfold uo_def. rewrite H. cbn [obind].
    destruct (zkind l) as [| |a] eqn:K.
    + exists M, (ZDef x l). cbn [obind fst snd]. split; auto. split; [intros o; cbn [sem_stmt]; rewrite H2; auto|]. split; auto. cbn [tpost]. subst ty. cbn [kty]. rewrite K. apply rel2_upd; [auto|discriminate|reflexivity].
    + exists M, (ZDef x l). cbn [obind fst snd]. split; auto. split; [intros o; cbn [sem_stmt]; rewrite H2; auto|]. split; auto. cbn [tpost]. subst ty. cbn [kty]. rewrite K. apply rel2_upd; [auto|discriminate|reflexivity].
    + assert (K' : kty (zkind l) = PU_ (uw a)) by (rewrite K; reflexivity).
      destruct (force_ok false l _ H1 K') as [al [A1 [A2 [A3 [_ A4]]]]]. cbn [force] in A4. rewrite A4. cbn [obind].
      rewrite (proj2 (kind_KU _ _) (set_kind _ _ (reflag (sr false) al) A1)). cbn [obind fst snd]. eexists _, _. split; [reflexivity|].
      split; [intros o; cbn [sem_stmt]; rewrite set_sem, H2 by auto; auto|]. split; [intros X; cbn [wts]; apply set_wt; eauto using set_max|].
      cbn [tpost]. rewrite (set_kind _ _ _ A1). subst ty. cbn [kty reflag uw] in *. rewrite A2.
      apply rel2_reg; auto. eexists. split; [reflexivity|]. split; auto. unfold ubound. cbn. lia.
  - match goal with X : has_ty _ _ _ |- _ => destruct (uo_ok _ _ _ _ _ X (proj1 R)) as [l [U1 [U2 [U3 [U4 [U5 U6]]]]]] end.
    match goal with X : sty_stmts S a _, Y : sty_stmts _ b _ |- _ => rename X into Ta; rename Y into Tb end.
    destruct (stmts_res _ H _ _ _ _ Ta R) as [M1 [a' [A1 [A2 [A3 A4]]]]]. destruct (stmts_res _ H0 _ _ _ _ Tb A4) as [M2 [b' [B1 [B2 [B3 B4]]]]].
    exists M2, (ZIf l a' b'). cbn [uo_stmt]. rewrite U1. cbn [obind]. rewrite !uo_stmts_go, A1. cbn [obind fst snd]. rewrite uo_stmts_go, B1. cbn [obind fst snd]. split; auto.
    split; [intros o; rewrite !sem_if, U4, A2; destruct (sem (os_env o) c) as [[| |]|]; auto; destruct (sem_stmts o a); auto|].
    split; [intros [X [Y Z]]; apply max_stmt_go in Y, Z; apply wts_if; split; auto; split; [destruct (zkind l); try discriminate; auto|auto]|]. exact B4.
  - match goal with X : has_ty _ _ _ |- _ => getr (uo_ok _ _ _ _ _ X (proj1 R)) l end. exists M, (ZAssert l err). cbn [uo_stmt]. rewrite H. split; auto.
    split; [intros o; cbn [sem_stmt]; rewrite H2; auto|]. split; auto. intros X. split; auto. destruct (zkind l); try discriminate; auto.
  - match goal with X : Forall2 _ _ _ |- _ => destruct (embed_res S M G xs em es R X) as [M' [es' [A [B [C D]]]]]; auto end.
    exists M', (ZEmbed xs em es'). split; auto. split; [intros o; cbn [sem_stmt]; rewrite B; auto|]. split; auto.
  - match goal with X : Forall2 _ _ _ |- _ => destruct (outs_ok2 _ _ _ _ _ X (proj1 R)) as [es' [A [B [C [D _]]]]] end.
    exists M, (ZLog f es'). cbn [uo_stmt]. rewrite A. split; auto. split; [intros o; cbn [sem_stmt]; rewrite C; auto|]. split; auto.
Qed.

(** ** Programs *)
Lemma params_rel : forall ps S M G, rel2 S M G -> Forall (fun q => tywid (zptype q)) ps ->
  rel2 (fold_left (fun S p => supd S (zpid p) (zptype p)) ps S)
       (fold_left (fun M p => match zptype p with PU_ w => mreg M (zpid p) w (pmeta w) | _ => M end) ps M) (ptenv G ps).
Proof.
  induction ps as [|p ps IH]; intros S M G R H; cbn [fold_left ptenv]; auto. inversion H as [|? ? H1 H2]; subst. apply IH; auto.
  destruct (zptype p) as [| |w]; cbn [pkind]; [apply rel2_upd; auto; [discriminate|reflexivity]|apply rel2_upd; auto; [discriminate|reflexivity]|].
  cbn [tywid] in H1. assert (Hm : fval (umax (pmeta w)) = pow2 w - 1) by (apply (fval_rm w H1)). apply rel2_reg; auto; [rewrite Hm; apply mu_wid; auto|].
  eexists. split; [reflexivity|]. split; auto. unfold ubound. cbn. lia.
Qed.
Lemma uo_stmts_last : forall ss M M' es l', uo_stmts M (ss ++ [ZReturn es]) = Some (M', l') -> exists ss' es', l' = ss' ++ [ZReturn es'] /\ length es' = length es.
Proof.
  assert (Hm : forall (f : zexp -> option zexp) es es', mapO f es = Some es' -> length es' = length es).
  { intros f. induction es as [|e es IH]; intros es' H; [injection H as <-; auto|]. change (obind (f e) (fun b => obind (mapO f es) (fun s => Some (b :: s))) = Some es') in H.
    destruct (f e); [|discriminate]. cbn [obind] in H. destruct (mapO f es) as [l|]; [|discriminate]. injection H as <-. cbn. rewrite (IH l); auto. }
  induction ss as [|s ss IH]; intros M M' es l' H; cbn [app uo_stmts] in H.
  - cbn [uo_stmt] in H. destruct (mapO (uo_out M) es) as [es'|] eqn:E; [|discriminate]. injection H as <- <-. exists [], es'. split; eauto.
  - destruct (uo_stmt M s) as [[M1 s1]|]; [|discriminate]. cbn [obind fst snd] in H. destruct (uo_stmts M1 (ss ++ [ZReturn es])) as [[M2 l2]|] eqn:E; [|discriminate].
    injection H as <- <-. destruct (IH _ _ _ _ E) as [ss' [es' [-> Hl]]]. exists (s1 :: ss'), es'. auto.
Qed.
Theorem uint_optimize_ok : forall p, sty_prog p -> exists p', uint_optimize p = Some p' /\
  zargs p' = zargs p /\ zret p' = zret p /\ (forall inputs, sem_prog p' inputs = sem_prog p inputs) /\ (max_ok_prog p' -> wtp p').
Proof.
  intros p [Hp [[S T] [ss [es [Eb El]]]]].
  assert (R0 : rel2 (fun _ => None) (fun _ _ => None) (fun _ => None)) by (split; [intros x t H; discriminate|auto]).
  pose proof (params_rel (zargs p) _ _ _ R0 Hp) as R.
  assert (HA : Forall stmt_res (zbody p)) by (apply Forall_forall; intros; apply uo_stmt_ok).
  destruct (stmts_res _ HA _ _ _ _ T R) as [M' [l' [A [B [C D]]]]]. unfold uint_optimize, uo_params. rewrite A. cbn [obind snd].
  eexists. split; [reflexivity|]. cbn [zargs zret]. split; auto. split; auto. split; [intros inputs; unfold sem_prog; cbn [zargs zbody]; destruct (bind_params _ _ _); auto; rewrite B; auto|].
  intros X. unfold max_ok_prog in X. cbn [zbody] in X. split; [|split]; cbn [zargs zbody zret].
  - eapply Forall_impl; [|exact Hp]. intros q. unfold tywid, param_ok. destruct (zptype q); auto.
  - apply C. exact X.
  - rewrite Eb in A. destruct (uo_stmts_last _ _ _ _ _ A) as [ss' [es' [E L]]]. exists ss', es'. split; auto. congruence.
Qed.
End UOP.
