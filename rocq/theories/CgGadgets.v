(** Correctness of the code generator's gadgets: bit decompositions, comparisons, equality, Euclidean division, bitwise
    operations. *)
From Coq Require Import ZArith Znumtheory NArith List Bool Lia Field.
From Verif Require Import PField SMap IR IRSpec Interp Bits Flat FlatProofs Zir Codegen CgBase.
Import ListNotations.
Open Scope Z_scope.

Section Arith.
Context {PF : PrimeField}.
Add Field Fcga : F_field_th.

Lemma req_lt_pp : (3 <= required_bits)%nat -> Z.of_nat required_bits < pp.
Proof.
  intros H. pose proof required_bits_bounds as [Hp _].
  assert (forall n, (3 <= n)%nat -> Z.of_nat n < pow2 (n - 1)) as A.
  { intros n Hn. induction Hn; [reflexivity|].
    replace (S m - 1)%nat with (S (m - 1)) by lia. rewrite pow2_S. lia. }
  specialize (A _ H). lia.
Qed.
Lemma pow2_lt_pp : forall n, (n < required_bits)%nat -> (2 <= n)%nat -> pow2 n <= pp.
Proof. intros. apply pow2_small_lt_pp; auto. Qed.
Lemma pow2_ltpp : forall n, (S n < required_bits)%nat -> pow2 n < pp.
Proof. intros n Hn. pose proof (pow2_small_lt_pp (S n) Hn) as H. rewrite pow2_S in H. pose proof (pow2_pos n). lia. Qed.
Lemma fval_fmax : fval fmax = pp - 1.
Proof. unfold fmax. apply fval_of_Z_small. pose proof pp_gt1; lia. Qed.
Lemma fval_sub_small : forall x y, fval y <= fval x -> fval (fsub x y) = fval x - fval y.
Proof.
  intros x y Hl. unfold fsub. apply fval_of_Z_small. pose proof (fval_range x). pose proof (fval_range y). lia.
Qed.
Lemma bv_to_bits : forall c : F, bv (to_bits_be c) = fval c.
Proof.
  intros c. unfold to_bits_be. rewrite bv_bits_be. apply Z.mod_small. pose proof (fval_range c).
  pose proof required_bits_bounds. lia.
Qed.
Lemma to_bits_len : forall c : F, length (to_bits_be c) = required_bits.
Proof. intros c. unfold to_bits_be. apply bits_be_length. Qed.
Lemma fbits_spec : forall c : F, fval c < pow2 (fbits c).
Proof.
  intros c. unfold fbits, pow2. pose proof (fval_range c) as Hr.
  destruct (Z.eqb_spec (fval c) 0) as [->|Hn]; [reflexivity|].
  assert (Hl : 0 <= Z.log2 (fval c)) by apply Z.log2_nonneg.
  replace (Z.of_nat (Nat.max 1 (Z.to_nat (Z.log2 (fval c) + 1)))) with (Z.succ (Z.log2 (fval c))) by lia.
  apply Z.log2_spec. lia.
Qed.
Lemma fbits_le : forall (c : F) n, (1 <= n)%nat -> fval c < pow2 n -> (fbits c <= n)%nat.
Proof.
  intros c n H1 Hl. unfold fbits, pow2 in *. pose proof (fval_range c) as Hr.
  destruct (Z.eqb_spec (fval c) 0) as [E|Hn]; [cbn; lia|].
  assert (Z.log2 (fval c) < Z.of_nat n) by (apply Z.log2_lt_pow2; lia). lia.
Qed.
Lemma fbits_req : forall c : F, (fbits c <= required_bits)%nat.
Proof.
  intros c. apply fbits_le. pose proof required_bits_pos; lia. pose proof (fval_range c).
  pose proof required_bits_bounds. lia.
Qed.
Lemma fbits_pos : forall c : F, (1 <= fbits c)%nat.
Proof. intros; unfold fbits; lia. Qed.
Lemma of_Z_inj_small : forall a b, 0 <= a < pp -> 0 <= b < pp -> of_Z a = of_Z b -> a = b.
Proof. intros a b Ha Hb H. apply of_Z_eq in H. rewrite !Z.mod_small in H; auto. Qed.
Lemma count_len : forall bs : list bool, (length (filter (fun b => b) bs) <= length bs)%nat.
Proof. induction bs as [|[|] r IH]; cbn; lia. Qed.
Lemma count_full : forall bs : list bool, length (filter (fun b => b) bs) = length bs <-> forallb (fun b => b) bs = true.
Proof.
  induction bs as [|[|] r IH]; cbn; [tauto| |].
  - split; intros H; [apply IH; lia|apply IH in H; lia].
  - split; intros H; [pose proof (count_len r); lia|discriminate].
Qed.
Lemma count_zero : forall bs : list bool, length (filter (fun b => b) bs) = 0%nat <-> Forall (fun b => b = false) bs.
Proof.
  induction bs as [|[|] r IH]; cbn; [split; auto| |].
  - split; [discriminate|]. intros H; inversion H; discriminate.
  - rewrite IH. split; [intros; constructor; auto|intros H; inversion H; auto].
Qed.
Lemma fsub_0 : forall x y : F, fsub x y = f0 <-> x = y.
Proof. intros x y. split; intros H; [|subst; ring]. replace x with (fadd (fsub x y) y) by ring. rewrite H. ring. Qed.
Lemma of_Z_off : forall c x y, of_Z (c + fval x - fval y) = fadd (of_Z c) (fsub x y).
Proof. intros. rewrite of_Z_sub, of_Z_add, !of_Z_fval. ring. Qed.
Lemma fval_off : forall c x y, 0 <= c + fval x - fval y < pp -> fval (fadd (of_Z c) (fsub x y)) = c + fval x - fval y.
Proof. intros. rewrite <- of_Z_off. apply fval_of_Z_small; auto. Qed.
End Arith.

Section Gadgets.
Context {PF : PrimeField}.
Variable ext : Z -> list F -> option (list F).
Variable w : env.
Variable HON : Prop.
Variables (rho : env_s) (G : tenv).
Hypothesis Hreq : (3 <= required_bits)%nat.
Add Field Fcgg : F_field_th.
Notation OK := (ok ext w HON rho G).
Notation EB := (EB w).
Notation entry_ok := (entry_ok w HON).

Lemma ok_dir : forall (C : Prop) outs sv ins,
  OK C (emit (XDir outs sv ins)) (fun _ => HON -> exec_solver ext sv (map (feval w) ins) = Some (map w outs)).
Proof. intros. apply ok_emit; cbn; auto. Qed.
Lemma ok_cond : forall (C : Prop) l q err,
  (HON -> C -> feval w q = feval w l) -> OK C (emit (XCond l q err)) (fun _ => feval w q = feval w l).
Proof. intros C l q err Hc. apply ok_emit; cbn; intros; symmetry; auto. Qed.
Lemma ok_def : forall (C : Prop) v e err, OK C (emit (XDef v e err)) (fun _ => w v = feval w e).
Proof. intros. apply ok_emit; cbn; auto. Qed.
Lemma ok_defs : forall (C : Prop) l (P : unit -> Prop), (Forall (fsat w) l -> P tt) ->
  Forall (fun s => match s with XDef _ _ _ => True | _ => False end) l -> OK C (emits l) P.
Proof.
  intros C l P HP Hd. apply ok_emits.
  - intros Hs _. apply HP. apply (gsat_fsat w). auto.
  - intros _ _ Hh. clear HP. induction Hd as [|s r Hs Hd IH]; constructor; inversion Hh; subst; auto.
    destruct s; try contradiction. cbn in *. auto.
Qed.

Lemma EB_bitness : forall vs, Forall (fun v => fmul (w v) (w v) = w v) vs -> exists bs, EB (map XId vs) bs.
Proof.
  induction vs as [|v r IH]; intros Hf; [exists []; reflexivity|]. inversion Hf as [|? ? H1 H2]; subst.
  destruct (IH H2) as [bs Hbs]. apply bit_of_square in H1 as [b Hb]. exists (b :: bs). cbn [map]. apply EB_cons. auto.
Qed.
Lemma bitness_sat : forall bits, Forall (fsat w) (map bitness bits) <-> Forall (fun e => fmul (feval w e) (feval w e) = feval w e) bits.
Proof.
  induction bits as [|x r IH]; cbn [map]; [split; constructor|].
  split; intros Hf; inversion Hf as [|? ? H1 H2]; subst; constructor; try (apply IH; auto); cbn in *; symmetry; auto.
Qed.
Lemma EB_square : forall bits bs, EB bits bs -> Forall (fun e => fmul (feval w e) (feval w e) = feval w e) bits.
Proof.
  induction bits as [|x r IH]; intros bs Hb; constructor.
  - apply EB_inv' in Hb as [b [s [-> [Hb Hs]]]]. rewrite Hb. apply square_of_bit.
  - apply EB_inv' in Hb as [b [s [-> [Hb Hs]]]]. eauto.
Qed.
Lemma ok_bitness : forall (C : Prop) bits, (HON -> C -> exists bs, EB bits bs) ->
  OK C (emits (map bitness bits)) (fun _ => Forall (fun e => fmul (feval w e) (feval w e) = feval w e) bits).
Proof.
  intros C bits Hc. apply ok_emits.
  - intros Hs _. apply bitness_sat. apply (gsat_fsat w); auto.
  - intros h c _. destruct (Hc h c) as [bs Hb]. apply bitness_sat. eapply EB_square; eauto.
Qed.
Lemma squares_bits : forall bits, Forall (fun e => fmul (feval w e) (feval w e) = feval w e) bits -> exists bs, EB bits bs.
Proof.
  induction bits as [|x r IH]; intros Hf; [exists []; reflexivity|]. inversion Hf as [|? ? H1 H2]; subst.
  destruct (IH H2) as [bs Hbs]. apply bit_of_square in H1 as [b Hb]. exists (b :: bs). apply EB_cons. auto.
Qed.
Lemma ok_note : forall (C : Prop) (b u : bool),
  OK C (emits (if b then [XNote u] else [])) (fun _ => (u = true -> b = false) /\ (HON -> b = false)).
Proof.
  intros C b u. apply ok_emits.
  - intros Hs Hh. split.
    + intros ->. destruct b; auto. inversion Hs; subst. discriminate.
    + intros h. specialize (Hh h). destruct b; auto. inversion Hh; subst. contradiction.
  - intros _ _ Hh. destruct b; auto. inversion Hh; contradiction.
Qed.
(** sums of bits *)
Lemma sum_small : forall bits bs, EB bits bs -> (length bits <= required_bits)%nat ->
  fval (feval w (fsum bits)) = Z.of_nat (length (filter (fun b => b) bs)).
Proof.
  intros bits bs Hb Hl. rewrite (fsum_bits w _ _ Hb). apply fval_of_Z_small.
  pose proof (count_len bs). rewrite (EB_length _ _ _ Hb) in Hl. pose proof (req_lt_pp Hreq). lia.
Qed.
Lemma sum_zero : forall bits bs, EB bits bs -> (length bits <= required_bits)%nat ->
  feval w (fsum bits) = f0 <-> Forall (fun b => b = false) bs.
Proof.
  intros bits bs Hb Hl. rewrite <- count_zero. pose proof (sum_small _ _ Hb Hl) as Hs. split; intros H.
  - rewrite H, fval_f0 in Hs. lia.
  - apply F_ext. rewrite Hs, H. reflexivity.
Qed.

(** l.1904-2010 *)
Lemma ok_get_bits : forall (C : Prop) k from to err,
  ((from < required_bits)%nat \/ (from <= to)%nat) ->
  (HON -> C -> fval (feval w k) < pow2 (Nat.max from to)) ->
  OK C (get_bits (UF k None) from to err) (fun bits => length bits = to /\ entry_ok k bits (Nat.leb from to)).
Proof.
  intros C k from to err Hpre HC. unfold get_bits.
  eapply ok_bind; [apply ok_assert|]. intros ? Hf. apply Nat.leb_le in Hf.
  eapply ok_bind; [apply ok_assert|]. intros ? Ht. apply Nat.leb_le in Ht.
  assert (Hval : forall x, k = XVal x ->
    OK C (cput (XVal x) (map XVal (solve_bits to x)) (fval x <? pow2 to) ;;;
      emits (if Nat.leb from to && (pow2 to <=? fval x) then [XNote true] else []) ;;;
      ret (map XVal (solve_bits to x))) (fun bits => length bits = to /\ entry_ok k bits (Nat.leb from to))).
  { intros x ->. rewrite solve_bits_eq. pose proof (pow2_pos to) as Hp2. pose proof (fval_range x) as Hx.
    assert (He : forall ex, (ex = true -> fval x < pow2 to) -> entry_ok (XVal x) (map XVal (map f_of_bool (bits_be to (fval x)))) ex).
    { intros ex Hex. exists (bits_be to (fval x)). split; [apply EB_vals|]. rewrite !map_length, bits_be_length.
      split; [auto|]. rewrite bv_bits_be. pose proof (Z.mod_le (fval x) (pow2 to) (proj1 Hx) Hp2). split; [intros; lia|].
      split; [intros _; cbn [feval]; auto|]. intros E. rewrite Z.mod_small by (specialize (Hex E); lia). cbn [feval]. apply of_Z_fval. }
    eapply ok_bind; [apply ok_cput, He|]. { intros E. apply Z.ltb_lt; auto. }
    intros ? _. eapply ok_bind; [apply ok_note|]. intros ? [Hn _]. apply ok_ret.
    split; [rewrite !map_length, bits_be_length; auto|]. apply He. intros E. rewrite E in Hn. specialize (Hn eq_refl).
    cbn [andb] in Hn. apply Z.leb_gt in Hn. auto. }
  assert (Hgen : OK C (
      hit <- cget k ;;
      match hit with
      | Some (bits, exact) =>
          emits (if negb exact && (Nat.leb from to || Nat.ltb (length bits) to) then [XNote true] else []) ;;;
          emits (if Nat.ltb to from && Nat.ltb to (length bits) then [XNote false] else []) ;;;
          emit (XCond (XVal f0) (fsum (firstn (length bits - to) bits)) err) ;;;
          ret (repeat (XVal f0) (to - length (skipn (length bits - to) bits)) ++ skipn (length bits - to) bits)
      | None =>
          vs <- freshn (Nat.max from to) ;;
          emit (XDir vs (SBits (Nat.max from to)) [k]) ;;;
          emits (map bitness (map XId vs)) ;;;
          emit (XCond k (ffb (map XId vs)) err) ;;;
          cput k (skipn (Nat.max from to - to) (map XId vs)) (Nat.eqb (Nat.max from to) to) ;;;
          cput (ffb (map XId vs)) (skipn (Nat.max from to - to) (map XId vs)) (Nat.eqb (Nat.max from to) to) ;;;
          ret (skipn (Nat.max from to - to) (map XId vs))
      end) (fun bits => length bits = to /\ entry_ok k bits (Nat.leb from to))).
  2:{ destruct k; try exact Hgen. apply Hval; auto. }
  clear Hval. pose proof (fval_range (feval w k)) as Hk. set (x := fval (feval w k)) in *.
  eapply ok_bind; [apply ok_cget|]. intros [[bits exact]|] He.
  - destruct (He _ _ eq_refl) as [bs [Hb [Hl [Hh [Hv Hfs]]]]]. clear He.
    remember (length bits) as L eqn:EL.
    assert (HL : length bs = L) by (subst L; symmetry; apply (EB_length w); auto).
    eapply ok_bind; [apply ok_note|]. intros ? [Hn1 _]. specialize (Hn1 eq_refl).
    eapply ok_bind; [apply ok_note|]. intros ? [_ Hn2].
    assert (Hdl : (length (firstn (L - to) bits) <= required_bits)%nat) by (rewrite firstn_length; lia).
    pose proof (EB_firstn w (L - to) _ _ Hb) as Hdrop.
    assert (Hvz : bv bs < pp -> x < pow2 to -> Forall (fun b => b = false) (firstn (L - to) bs)).
    { intros Hpp Hx. apply bv_zero_iff. rewrite bv_firstn by lia. rewrite HL.
      destruct (Nat.le_gt_cases L to).
      - replace (L - to)%nat with 0%nat by lia. rewrite Nat.sub_0_r. apply Z.div_small. pose proof (bv_range bs) as Hr. rewrite HL in Hr. lia.
      - replace (L - (L - to))%nat with to by lia. destruct (Hv Hpp) as [-> _]. fold x. apply Z.div_small. pose proof (pow2_pos L) as HpL.
        pose proof (Z.mod_le x (pow2 L) (proj1 Hk) HpL). pose proof (Z.mod_pos_bound x (pow2 L) HpL). lia. }
    eapply ok_bind; [apply ok_cond|].
    { intros h c. specialize (Hn2 h). cbn [feval]. apply (sum_zero _ _ Hdrop Hdl).
      destruct (Nat.le_gt_cases L to).
      - replace (L - to)%nat with 0%nat by lia. constructor.
      - apply Hvz; [apply Hh; auto|]. specialize (HC h c).
        apply andb_false_iff in Hn2. destruct Hn2 as [Hn2|Hn2]; apply Nat.ltb_ge in Hn2; [|lia].
        replace (Nat.max from to) with to in HC by lia. auto. }
    intros ? Hsum. cbn [feval] in Hsum. apply (sum_zero _ _ Hdrop Hdl) in Hsum. apply ok_ret.
    set (res := skipn (L - to) bits). assert (Hrl : length res = Nat.min L to) by (unfold res; rewrite skipn_length; lia).
    rewrite Hrl. split; [rewrite app_length, repeat_length; lia|].
    pose proof (EB_skipn w (L - to) _ _ Hb) as Hres. fold res in Hres.
    assert (Hbv : bv (skipn (L - to) bs) = bv bs).
    { rewrite <- (firstn_skipn (L - to) bs) at 2. rewrite bv_app. apply bv_zero_iff in Hsum. rewrite Hsum. lia. }
    exists (repeat false (to - Nat.min L to) ++ skipn (L - to) bs).
    split; [apply EB_app; [apply EB_zeros|auto]|]. rewrite bv_zeros_app, Hbv.
    rewrite app_length, repeat_length, Hrl. replace (to - Nat.min L to + Nat.min L to)%nat with to by lia.
    split; [auto|]. split; [auto|].
    assert (Hfs' : (from <=? to)%nat = true -> of_Z (bv bs) = feval w k).
    { intros E. apply Hfs. rewrite E in Hn1. rewrite orb_true_l, andb_true_r in Hn1. destruct exact; [auto|discriminate]. }
    split; [|exact Hfs']. intros Hpp. destruct (Hv Hpp) as [E Hex]. fold x; fold x in E, Hex.
    assert (Hbr : bv bs < pow2 (Nat.min L to)).
    { rewrite <- Hbv. pose proof (bv_range (skipn (L - to) bs)) as Hr. rewrite skipn_length, HL in Hr.
      replace (L - (L - to))%nat with (Nat.min L to) in Hr by lia. lia. }
    pose proof (pow2_pos L). pose proof (pow2_pos to). pose proof (bv_range bs).
    destruct (Nat.le_gt_cases L to) as [Hle|Hgt].
    + destruct exact.
      * specialize (Hex eq_refl). rewrite Z.mod_small in E by lia. pose proof (pow2_le L to Hle).
        rewrite Z.mod_small by lia. split; [auto|intros; lia].
      * cbn [negb andb] in Hn1. apply orb_false_iff in Hn1 as [Hn1 Hn3]. apply Nat.ltb_ge in Hn3. rewrite Hn1.
        replace to with L by lia. split; [auto|discriminate].
    + replace (Nat.min L to) with to in Hbr by lia.
      assert (Hmm : (x mod pow2 L) mod pow2 to = x mod pow2 to).
      { symmetry. apply Zmod_div_mod; try lia. exists (pow2 (L - to)). rewrite <- pow2_add. f_equal. lia. }
      split; [rewrite <- Hmm, <- E, Z.mod_small; lia|]. intros Hft. rewrite Hft in Hn1. rewrite orb_true_l, andb_true_r in Hn1.
      destruct exact; [|discriminate]. specialize (Hex eq_refl). rewrite Z.mod_small in E by lia. lia.
  - set (N := Nat.max from to) in *. clear He.
    eapply ok_bind; [apply ok_freshn|]. intros vs Hvs.
    eapply ok_bind; [apply ok_dir|]. intros ? Hdir. cbn [map exec_solver] in Hdir.
    assert (Hhon : HON -> EB (map XId vs) (bits_be N x)).
    { intros h. specialize (Hdir h). injection Hdir as Hd. apply EB_ids. rewrite <- Hd, solve_bits_eq. reflexivity. }
    eapply ok_bind; [apply ok_bitness|]. { intros h _. eauto. }
    intros ? Hsq. apply squares_bits in Hsq as [bs Hb].
    assert (Hbl : length bs = N) by (rewrite <- (EB_length w _ _ Hb), map_length; auto).
    assert (Hhb : HON -> bs = bits_be N x) by (intros h; apply (EB_inj w _ _ _ Hb (Hhon h))).
    pose proof (ffb_bits w _ _ Hb) as Hfb. pose proof (bv_range bs) as Hbr. rewrite Hbl in Hbr.
    eapply ok_bind; [apply ok_cond|].
    { intros h c. specialize (HC h c). rewrite Hfb, (Hhb h), bv_bits_be. rewrite Z.mod_small by lia. apply of_Z_fval. }
    intros ? Hc.
    assert (Hent : forall k', feval w k' = feval w k ->
      entry_ok k' (skipn (N - to) (map XId vs)) (Nat.eqb N to)).
    { intros k' Ek. exists (skipn (N - to) bs). split; [apply EB_skipn; auto|].
      rewrite skipn_length, map_length, Hvs. replace (N - (N - to))%nat with to by lia. split; [auto|].
      rewrite bv_skipn by lia. rewrite Hbl. replace (N - (N - to))%nat with to by lia.
      pose proof (pow2_pos to) as Hpt. pose proof (pow2_pos N) as HpN.
      split.
      - intros h. rewrite (Hhb h), bv_bits_be. pose proof (Z.mod_le x (pow2 N) (proj1 Hk) HpN).
        pose proof (Z.mod_pos_bound x (pow2 N) HpN) as HmN.
        pose proof (Z.mod_le (x mod pow2 N) (pow2 to) (proj1 HmN) Hpt). lia.
      - assert (HE : (N =? to)%nat = true -> of_Z (bv bs mod pow2 to) = feval w k').
        { intros E. apply Nat.eqb_eq in E. rewrite <- E, Z.mod_small by lia. rewrite Ek, <- Hc. symmetry. exact Hfb. }
        split; [|exact HE]. rewrite Ek. fold x. intros Hpp.
        assert (Hx : bv bs < pp -> x = bv bs).
        { intros Hlt. unfold x. rewrite <- Hc, Hfb. apply fval_of_Z_small. lia. }
        destruct (Nat.eqb_spec N to) as [EN|EN].
        + rewrite <- EN in *. rewrite Z.mod_small in Hpp by lia. rewrite (Hx Hpp). split; [reflexivity|lia].
        + assert (Hlt : bv bs < pp).
          { assert (N < required_bits)%nat by lia. pose proof (pow2_small_lt_pp N). lia. }
          rewrite (Hx Hlt). split; [reflexivity|discriminate]. }
    assert (Hff : feval w (ffb (map XId vs)) = feval w k) by auto.
    eapply ok_bind; [apply ok_cput; apply Hent; auto|]. intros ? _.
    eapply ok_bind; [apply ok_cput; apply Hent; auto|]. intros ? _.
    apply ok_ret. split; [rewrite skipn_length, map_length, Hvs; lia|].
    replace (Nat.leb from to) with (Nat.eqb N to); [apply Hent; auto|].
    destruct (Nat.eqb_spec N to), (Nat.leb_spec from to); auto; lia.
Qed.

(** l.322-411 *)
Lemma bv_cons_cmp : forall a a' b b', length a' = length b' ->
  (bv (a :: a') <= bv (b :: b') <-> (a = b /\ bv a' <= bv b') \/ (a = false /\ b = true)).
Proof.
  intros a a' b b' Hl. rewrite !bv_cons, Hl. pose proof (bv_range a') as Ha. pose proof (bv_range b') as Hb. rewrite Hl in Ha.
  destruct a, b; (split; [intros; try (left; split; [reflexivity|lia]); try (right; auto; fail); lia
                         |intros [[E ?]|[E1 E2]]; try discriminate; lia]).
Qed.
Lemma EB_nil : EB [] [].
Proof. reflexivity. Qed.
Lemma ok_clc_loop : forall (C : Prop) a b prs as_ (S : bool),
  EB a as_ -> length a = length b -> length prs = length b ->
  match prs with (_, su) :: _ => w su = f_of_bool S | [] => True end ->
  OK C (clc_loop a b prs) (fun conds => exists cs, EB conds cs /\ (length conds <= length a)%nat /\
    (forallb (fun c => c) cs = true <-> (S = true -> bv as_ <= bv b))).
Proof.
  intros C. induction a as [|ai a IH]; intros b prs as_ S Ha Hl Hp Hs.
  - destruct as_; [|discriminate]. destruct b; [|discriminate]. cbn [clc_loop]. apply ok_ret. exists []. split; [apply EB_nil|].
    split; [auto|]. cbn. split; intros; auto; lia.
  - apply EB_inv' in Ha as [x [as' [-> [Hx Ha]]]]. destruct b as [|bi b]; [discriminate|].
    destruct prs as [|[run su] prs]; [discriminate|]. cbn [length] in Hl, Hp. apply Nat.succ_inj in Hl, Hp.
    assert (Hla : length as' = length b) by (rewrite <- (EB_length w _ _ Ha); auto).
    destruct bi; cbn [clc_loop].
    + eapply ok_bind; [apply ok_def|]. intros ? Hrun. rewrite Hx in Hrun.
      eapply ok_bind; [apply (ok_defs C _ (fun _ => match prs with (_, su') :: _ => w su' = f_of_bool (S && x) | [] => True end))|].
      { destruct prs as [|[r' su'] prs]; auto. intros Hd. inversion Hd as [|? ? H1 _]; subst. cbn in H1.
        rewrite H1, Hs, Hrun. destruct S, x; cbn [andb f_of_bool]; ring. }
      { destruct prs as [|[r' su'] prs]; repeat constructor. }
      intros ? Hsu. eapply ok_weaken; [apply (IH b prs as' (S && x) Ha Hl Hp Hsu)|].
      intros conds [cs [H1 [H2 H3]]]. exists cs. split; auto. split; [cbn; lia|]. rewrite H3, bv_cons_cmp by auto.
      destruct S, x; cbn [andb]; intuition (auto; try discriminate).
    + eapply ok_bind; [apply (ok_defs C _ (fun _ => match prs with (_, su') :: _ => w su' = f_of_bool S | [] => True end))|].
      { destruct prs as [|[r' su'] prs]; auto. intros Hd. inversion Hd as [|? ? H1 _]; subst. cbn in H1. congruence. }
      { destruct prs as [|[r' su'] prs]; repeat constructor. }
      intros ? Hsu. eapply ok_bind; [apply ok_fresh|]. intros v _.
      eapply ok_bind; [apply ok_def|]. intros ? Hv. cbn [feval one] in Hv. rewrite Hs, Hx in Hv.
      eapply ok_bind; [apply (IH b prs as' S Ha Hl Hp Hsu)|].
      intros conds [cs [H1 [H2 H3]]]. apply ok_ret. exists (negb S || negb x :: cs).
      split; [apply EB_cons; split; auto|].
      { cbn [feval one]. rewrite Hv, Hs, Hx. destruct S, x; cbn [negb orb f_of_bool]; ring. }
      split; [cbn; lia|]. cbn [forallb]. rewrite andb_true_iff, H3, bv_cons_cmp by auto.
      destruct S, x; cbn [negb orb]; intuition (auto; try discriminate).
Qed.
Lemma all_ones_max : forall b a, forallb (fun x : bool => x) b = true -> length a = length b -> bv a <= bv b.
Proof.
  intros b a Hb Hl. assert (E : b = repeat true (length b)).
  { clear Hl. induction b as [|[|] b IH]; cbn in *; try discriminate; auto. f_equal; auto. }
  rewrite E, bv_ones, <- Hl. pose proof (bv_range a). lia.
Qed.
Lemma ok_defines : forall (C : Prop) a as_, EB a as_ -> OK C (mapM define a) (fun vs => EB (map XId vs) as_).
Proof.
  intros C. induction a as [|x a IH]; intros as_ Ha; cbn [mapM].
  - destruct as_; [|discriminate]. apply ok_ret. apply EB_nil.
  - apply EB_inv' in Ha as [b [as' [-> [Hx Ha]]]]. eapply ok_bind; [apply ok_define|]. intros v Hv.
    eapply ok_bind; [apply (IH _ Ha)|]. intros vs Hvs. apply ok_ret. cbn [map]. apply EB_cons. split; [cbn; congruence|auto].
Qed.
Lemma ok_constant_le_check : forall (C : Prop) a b as_, EB a as_ ->
  OK C (constant_le_check a b) (fun conds => exists cs, EB conds cs /\ (length conds <= length a)%nat /\ length a = length b /\
    (forallb (fun c => c) cs = true <-> bv as_ <= bv b)).
Proof.
  intros C a b as_ Ha. unfold constant_le_check. eapply ok_bind; [apply ok_assert|]. intros ? Hl. apply Nat.eqb_eq in Hl.
  assert (Hla : length as_ = length b) by (rewrite <- (EB_length w _ _ Ha); auto).
  destruct (forallb (fun x => x) b) eqn:Eb.
  - eapply ok_bind; [apply (ok_defines C a as_ Ha)|]. intros vs Hvs.
    rewrite <- (map_map XId bitness vs). eapply ok_bind; [apply ok_bitness; intros _ _; exists as_; exact Hvs|]. intros ? _.
    apply ok_ret. exists []. split; [apply EB_nil|]. split; [cbn; lia|]. split; [auto|].
    split; [intros _; apply all_ones_max; auto|auto].
  - eapply ok_bind; [apply (ok_mapM ext w HON rho G C _ _ _ (fun _ _ => True))|].
    { intros x _. eapply ok_bind; [apply ok_fresh|]. intros. eapply ok_bind; [apply ok_fresh|]. intros. apply ok_ret. auto. }
    intros prs Hprs. assert (Hpl : length prs = length b) by (symmetry; eapply f2_length; eauto).
    eapply ok_bind; [apply (ok_defs C _ (fun _ => match prs with (_, su) :: _ => w su = f_of_bool true | [] => True end))|].
    { destruct prs as [|[r' su'] prs]; auto. intros Hd. inversion Hd as [|? ? H1 _]; subst. exact H1. }
    { destruct prs as [|[r' su'] prs]; repeat constructor. }
    intros ? Hsu. eapply ok_weaken; [apply (ok_clc_loop C a b prs as_ true); auto|].
    intros conds [cs [H1 [H2 H3]]]. exists cs. split; [auto|]. split; [auto|]. split; [auto|]. rewrite H3. intuition.
Qed.

(** l.423-466 *)
Lemma ok_eq_check : forall (C : Prop) l r,
  OK C (eq_check l r) (fun e => feval w e = f_of_bool (fval (feval w l) =? fval (feval w r))).
Proof.
  intros C l r. unfold eq_check. eapply ok_bind; [apply ok_define|]. intros lv Hl. eapply ok_bind; [apply ok_define|]. intros rv Hr.
  eapply ok_bind; [apply ok_fresh|]. intros y _. eapply ok_bind; [apply ok_fresh|]. intros m _.
  eapply ok_bind; [apply ok_dir|]. intros ? Hd. cbn [map feval exec_solver] in Hd. rewrite Hl, Hr in Hd.
  set (x := fsub (feval w l) (feval w r)) in *.
  assert (Hy : HON -> w y = (if Feqb x f0 then f0 else f1) /\ w m = (if Feqb x f0 then f1 else fdiv f1 x)).
  { intros h. specialize (Hd h). destruct (Feqb x f0); injection Hd as -> ->; auto. }
  eapply ok_bind; [apply ok_cond|].
  { intros h _. cbn [feval]. destruct (Hy h) as [-> ->]. rewrite Hl, Hr. fold x.
    destruct (Feqb_spec x f0) as [E|Hn]; [rewrite E; ring|]. field. auto. }
  intros ? H1. cbn [feval] in H1. rewrite Hl, Hr in H1. fold x in H1.
  eapply ok_bind; [apply ok_cond|].
  { intros h _. destruct (Hy h) as [E _]. cbn [feval one]. rewrite Hl, Hr, E. fold x.
    destruct (Feqb_spec x f0) as [E'|Hn]; [rewrite E'|]; ring. }
  intros ? H2. cbn [feval one] in H2. rewrite Hl, Hr in H2. fold x in H2.
  apply ok_ret. cbn [feval one].
  destruct (Z.eqb_spec (fval (feval w l)) (fval (feval w r))) as [E|E]; cbn [f_of_bool].
  - apply F_ext in E. assert (Ex : x = f0) by (apply fsub_0; auto). rewrite Ex in H1. rewrite <- H1. ring.
  - apply fmul_integral in H2 as [H2|H2]; [auto|]. exfalso. apply E. apply (proj1 (fsub_0 _ _)) in H2. rewrite H2. reflexivity.
Qed.

(** l.476-502 *)
Lemma ok_enforce_le_bits : forall (C : Prop) a c as_ err, EB a as_ -> (length a <= required_bits)%nat ->
  (HON -> C -> bv as_ <= bv c) ->
  OK C (enforce_le_bits a c err) (fun _ => bv as_ <= bv c).
Proof.
  intros C a c as_ err Ha Hl HC. unfold enforce_le_bits. eapply ok_bind; [apply (ok_constant_le_check C _ _ _ Ha)|].
  intros conds [cs [Hc [Hcl [_ Hiff]]]]. pose proof (EB_length w _ _ Hc) as Hlen. pose proof (req_lt_pp Hreq) as Hpp.
  assert (Hs : feval w (fsum conds) = of_Z (Z.of_nat (length conds)) <-> bv as_ <= bv c).
  { rewrite <- Hiff, <- count_full, <- Hlen. rewrite (fsum_bits w _ _ Hc). pose proof (count_len cs). split; intros Hx.
    - apply of_Z_inj_small in Hx; lia.
    - congruence. }
  eapply ok_weaken; [apply ok_cond|].
  - intros h hc. cbn [feval]. apply fsub_0. apply Hs. auto.
  - intros ? Hx. cbn [feval] in Hx. apply (proj1 (fsub_0 _ _)) in Hx. apply Hs. auto.
Qed.
Lemma fbits_low : forall c : F, skipn (required_bits - fbits c) (to_bits_be c) = bits_be (fbits c) (fval c).
Proof.
  intros c. unfold to_bits_be. rewrite bits_be_skipn by lia. f_equal. pose proof (fbits_req c). lia.
Qed.
(** l.511-541 *)
Lemma ok_enforce_constant_le : forall (C : Prop) e c err,
  (HON -> C -> fval (feval w e) <= fval c) ->
  OK C (enforce_constant_le e c err) (fun _ => fval (feval w e) <= fval c).
Proof.
  intros C e c err HC. unfold enforce_constant_le. pose proof (fbits_spec c) as Hb. pose proof (fval_range c) as Hc.
  eapply ok_bind; [apply ok_get_bits; [right; auto|]|].
  { intros h hc. specialize (HC h hc). rewrite Nat.max_id. lia. }
  intros bits [Hlen [bs [Hbs [Hl [Hh [Hv _]]]]]]. rewrite fbits_low.
  assert (Ebc : bv (bits_be (fbits c) (fval c)) = fval c) by (rewrite bv_bits_be; apply Z.mod_small; lia).
  rewrite Hlen, Nat.leb_refl in Hv. pose proof (fval_range (feval w e)) as He.
  assert (Hv' : bv bs < pp -> bv bs = fval (feval w e)).
  { intros Hlt. destruct (Hv Hlt) as [E Hx]. specialize (Hx eq_refl). rewrite Z.mod_small in E; lia. }
  eapply ok_weaken; [apply (ok_enforce_le_bits C _ _ _ err Hbs Hl)|].
  - intros h hc. rewrite Ebc, Hv'; auto.
  - intros ? Hle. cbn beta in Hle. rewrite Ebc in Hle. rewrite <- Hv'; lia.
Qed.
(** l.550-568 *)
Lemma ok_enforce_constant_lt : forall (C : Prop) e c err,
  (HON -> C -> fval (feval w e) < fval c) ->
  OK C (enforce_constant_lt e c err) (fun _ => fval (feval w e) < fval c).
Proof.
  intros C e c err HC. unfold enforce_constant_lt. pose proof (fval_range (feval w e)) as He.
  destruct (Feqb_spec c f0) as [->|Hn].
  - eapply ok_weaken; [apply ok_cond|].
    + intros h hc. specialize (HC h hc). rewrite fval_f0 in HC. lia.
    + intros ? Hx. exfalso. exact (F_1_neq_0 Hx).
  - assert (Hc : fval (fsub c f1) = fval c - 1).
    { rewrite fval_sub_small, fval_f1; auto. rewrite fval_f1. pose proof (fval_range c).
      assert (fval c <> 0) by (intros E; apply Hn; apply F_ext; rewrite E; auto). lia. }
    eapply ok_weaken; [apply ok_enforce_constant_le|].
    + intros h hc. specialize (HC h hc). lia.
    + cbn beta. intros ? Hx. lia.
Qed.
(** l.680-718 *)
Lemma ok_constant_field_le : forall (C : Prop) e c,
  OK C (constant_field_le e c) (fun z => feval w z = f_of_bool (fval (feval w e) <=? fval c)).
Proof.
  intros C e c. unfold constant_field_le. pose proof required_bits_bounds as [_ Hr]. pose proof (fval_range (feval w e)) as He.
  eapply ok_bind; [apply ok_get_bits; [right; auto|]|].
  { intros _ _. rewrite Nat.max_id. lia. }
  intros bits [Hlen [bs [Hbs [Hl [Hh [Hv _]]]]]].
  eapply ok_bind; [apply (ok_enforce_le_bits C _ _ _ _ Hbs Hl)|].
  { intros h _. rewrite bv_to_bits, fval_fmax. specialize (Hh h). lia. }
  intros ? Hle. cbn beta in Hle. rewrite bv_to_bits, fval_fmax in Hle.
  destruct (Hv) as [E _]; [lia|]. rewrite Hlen, Z.mod_small in E by lia.
  eapply ok_bind; [apply (ok_constant_le_check C _ _ _ Hbs)|]. intros conds [cs [Hc [Hcl [_ Hiff]]]].
  eapply ok_weaken; [apply ok_eq_check|]. cbn beta. intros z ->. f_equal. cbn [feval].
  rewrite (sum_small _ _ Hc) by lia. pose proof (req_lt_pp Hreq). rewrite fval_of_Z_small by lia.
  rewrite (EB_length w _ _ Hc). rewrite bv_to_bits, E in Hiff. rewrite <- count_full in Hiff.
  apply eq_true_iff_eq. rewrite Z.eqb_eq, Z.leb_le. rewrite <- Hiff. lia.
Qed.
Lemma ok_constant_lt : forall (C : Prop) e c,
  OK C (constant_lt e c) (fun z => feval w z = f_of_bool (fval (feval w e) <? fval c)).
Proof.
  intros C e c. unfold constant_lt. pose proof (fval_range (feval w e)) as He. pose proof (fval_range c) as Hc.
  destruct (Feqb_spec c f0) as [->|Hn].
  - apply ok_ret. rewrite fval_f0. destruct (Z.ltb_spec (fval (feval w e)) 0); [lia|reflexivity].
  - assert (Hc1 : fval (fsub c f1) = fval c - 1).
    { rewrite fval_sub_small, fval_f1; auto. rewrite fval_f1.
      assert (fval c <> 0) by (intros E; apply Hn; apply F_ext; rewrite E; auto). lia. }
    eapply ok_weaken; [apply ok_constant_field_le|]. cbn beta. intros z ->. f_equal. rewrite Hc1.
    apply eq_true_iff_eq. rewrite Z.leb_le, Z.ltb_lt. lia.
Qed.
(** comparing with a constant on the left *)
Lemma ok_constant_gt : forall (C : Prop) e c,
  OK C (constant_lt (XSub (XVal fmax) e) (fsub fmax c)) (fun z => feval w z = f_of_bool (fval c <? fval (feval w e))).
Proof.
  intros C e c. eapply ok_weaken; [apply ok_constant_lt|]. cbn beta. intros z ->. f_equal. cbn [feval].
  pose proof (fval_range (feval w e)). pose proof (fval_range c). rewrite !fval_sub_small, fval_fmax by (rewrite fval_fmax; lia).
  apply eq_true_iff_eq. rewrite !Z.ltb_lt. lia.
Qed.
Definition is_val (e : fexp) : bool := match e with XVal _ => true | _ => false end.
(** l.741-789 *)
Lemma ok_lt_check : forall (C : Prop) l r n, (S n < required_bits)%nat ->
  (is_val l || is_val r = false -> fval (feval w l) < pow2 n /\ fval (feval w r) < pow2 n) ->
  OK C (lt_check l r n) (fun z => feval w z = f_of_bool (fval (feval w l) <? fval (feval w r))).
Proof.
  intros C l r n Hn Hb. unfold lt_check.
  assert (Hdyn : is_val l || is_val r = false ->
    OK C (li <- define l ;; ri <- define r ;;
      bits <- get_bits (UF (XAdd (XVal (of_Z (pow2 n))) (XSub (XId li) (XId ri))) None) (S n) (S n) eSum ;;
      match bits with b0 :: _ => ret (XSub one b0) | [] => fail end)
     (fun z => feval w z = f_of_bool (fval (feval w l) <? fval (feval w r)))).
  { intros Hd. destruct (Hb Hd) as [H1 H2]. pose proof (pow2_ltpp n Hn) as Hp. pose proof (pow2_pos n).
    pose proof (pow2_small_lt_pp (S n) Hn) as Hps.
    pose proof (fval_range (feval w l)) as Hl. pose proof (fval_range (feval w r)) as Hr.
    eapply ok_bind; [apply ok_define|]. intros li Hli. eapply ok_bind; [apply ok_define|]. intros ri Hri.
    set (k := XAdd (XVal (of_Z (pow2 n))) (XSub (XId li) (XId ri))).
    assert (Hk : fval (feval w k) = pow2 n + fval (feval w l) - fval (feval w r)).
    { unfold k. cbn [feval]. rewrite Hli, Hri. apply fval_off. rewrite pow2_S in Hps. lia. }
    eapply ok_bind; [apply ok_get_bits; [right; auto|]|].
    { intros _ _. rewrite Hk, Nat.max_id, pow2_S. lia. }
    intros bits [Hlen [bs [Hbs [Hll [Hh [Hv _]]]]]].
    destruct bits as [|b0 bits]; [apply ok_fail|]. apply EB_inv' in Hbs as [b [bs' [-> [Hb0 Hbs]]]].
    assert (Hl' : length bs' = n) by (rewrite <- (EB_length w _ _ Hbs); cbn in Hlen; lia).
    pose proof (bv_range (b :: bs')) as Hbr. cbn [length] in Hbr. rewrite Hl' in Hbr.
    destruct Hv as [E _]; [lia|]. rewrite Hlen, Hk, pow2_S, Z.mod_small, bv_cons, Hl' in E by lia.
    pose proof (bv_range bs') as Hbr'. rewrite Hl' in Hbr'.
    apply ok_ret. cbn [feval one]. rewrite Hb0.
    destruct b; destruct (Z.ltb_spec (fval (feval w l)) (fval (feval w r))); cbn [f_of_bool]; try ring; lia. }
  destruct l, r; try (apply ok_constant_lt); try (apply ok_constant_gt); try (apply Hdyn; reflexivity).
Qed.
Lemma le_bool : forall a b : Z, fadd (f_of_bool (a =? b)) (f_of_bool (a <? b)) = f_of_bool (a <=? b).
Proof.
  intros a b. destruct (Z.eqb_spec a b), (Z.ltb_spec a b), (Z.leb_spec a b); cbn [f_of_bool]; try ring; lia.
Qed.
(** l.720-739 *)
Lemma ok_le_check : forall (C : Prop) l r n, (S n < required_bits)%nat ->
  (is_val l || is_val r = false -> fval (feval w l) < pow2 n /\ fval (feval w r) < pow2 n) ->
  OK C (le_check l r n) (fun z => feval w z = f_of_bool (fval (feval w l) <=? fval (feval w r))).
Proof.
  intros C l r n Hn Hb. unfold le_check. eapply ok_bind; [apply ok_eq_check|]. intros e He.
  eapply ok_bind; [apply ok_lt_check; eauto|]. intros t Ht. apply ok_ret. cbn [feval]. rewrite He, Ht. apply le_bool.
Qed.
Lemma safe_pow : fval (of_Z (pow2 safe_width)) = pow2 safe_width.
Proof. apply fval_of_Z_small. pose proof (pow2_pos safe_width). pose proof (pow2_ltpp safe_width). unfold safe_width in *. lia. Qed.
Definition dyn_ok (l r : fexp) : Prop :=
  is_val l || is_val r = false -> fval (feval w l) < pow2 safe_width /\ fval (feval w r) < pow2 safe_width.
(** l.801-835 *)
Lemma ok_field_lt : forall (C : Prop) l r, (HON -> C -> dyn_ok l r) ->
  OK C (field_lt l r) (fun z => dyn_ok l r /\ feval w z = f_of_bool (fval (feval w l) <? fval (feval w r))).
Proof.
  intros C l r HC. unfold field_lt.
  assert (Hdyn : is_val l || is_val r = false -> OK C (
      enforce_constant_lt l (of_Z (pow2 safe_width)) eIncompleteDynamicRange ;;;
      enforce_constant_lt r (of_Z (pow2 safe_width)) eIncompleteDynamicRange ;;;
      lt_check l r safe_width) (fun z => dyn_ok l r /\ feval w z = f_of_bool (fval (feval w l) <? fval (feval w r)))).
  { intros Hd. eapply ok_bind; [apply ok_enforce_constant_lt|].
    { intros h hc. rewrite safe_pow. apply (HC h hc Hd). }
    intros ? H1. eapply ok_bind; [apply ok_enforce_constant_lt|].
    { intros h hc. rewrite safe_pow. apply (HC h hc Hd). }
    intros ? H2. cbn beta in H1, H2. rewrite safe_pow in H1, H2.
    eapply ok_weaken; [apply ok_lt_check|].
    - unfold safe_width. lia.
    - auto.
    - cbn beta. intros z Hz. split; [intros _; auto|auto]. }
  destruct l, r; try (apply Hdyn; reflexivity);
    first [eapply ok_weaken; [apply ok_constant_lt|]; cbn beta; intros z Hz; split; [intros Hd; discriminate|exact Hz]
          |eapply ok_weaken; [apply ok_constant_gt|]; cbn beta; intros z Hz; split; [intros Hd; discriminate|exact Hz]].
Qed.

(** l.579-640 *)
Lemma ok_cond_flat : forall (C : Prop) cid b x y, w cid = f_of_bool b ->
  OK C (cond_flat cid x y) (fun u => getbits u = None /\ is_val (getf u) = false /\
                                     feval w (getf u) = if b then feval w x else feval w y).
Proof.
  intros C cid b x y Hb. unfold cond_flat.
  do 5 (eapply ok_bind; [apply ok_newdef|]; intros ? ?). apply ok_ret. cbn [getbits getf]. split; [auto|]. split; [auto|].
  cbn [feval one] in *. rewrite H3, H1, H2, H, H0, Hb. destruct b; cbn [f_of_bool]; ring.
Qed.
(** l.921-941 *)
Lemma ok_or_flat : forall (C : Prop) x y a b, feval w x = f_of_bool a -> feval w y = f_of_bool b ->
  OK C (or_flat x y) (fun z => feval w z = f_of_bool (a || b)).
Proof.
  intros C x y a b Hx Hy. unfold or_flat. eapply ok_bind; [apply ok_fresh|]. intros v _.
  eapply ok_bind; [apply ok_dir|]. intros ? Hd. cbn [map exec_solver] in Hd.
  eapply ok_bind; [apply ok_cond|].
  { intros h _. specialize (Hd h). injection Hd as Hd. cbn [feval]. rewrite <- Hd, Hx, Hy. ring. }
  intros ? H1. cbn [feval] in H1. apply ok_ret. cbn [feval]. rewrite Hx, Hy in H1.
  transitivity (fsub (fadd (f_of_bool a) (f_of_bool b)) (fmul (f_of_bool a) (f_of_bool b))).
  - rewrite H1. ring.
  - destruct a, b; cbn [orb f_of_bool]; ring.
Qed.
Lemma as_val_spec : forall x y n e, as_val x y = Some (n, e) ->
  (feval w x = n /\ feval w y = feval w e) \/ (feval w y = n /\ feval w x = feval w e).
Proof. intros x y n e H. destruct x, y; cbn in H; try discriminate; injection H as <- <-; cbn; auto. Qed.
(** l.1237-1279 *)
Lemma ok_xor_bit : forall (C : Prop) x y a b, feval w x = f_of_bool a -> feval w y = f_of_bool b ->
  OK C (xor_bit x y) (fun z => feval w z = f_of_bool (xorb a b)).
Proof.
  intros C x y a b Hx Hy. unfold xor_bit. destruct (as_val x y) as [[n e]|] eqn:Ea.
  - apply as_val_spec in Ea. destruct (Feqb_spec n f0) as [->|Hn]; [|destruct (Feqb_spec n f1) as [->|Hn1]].
    + eapply ok_bind; [apply ok_define|]. intros v Hv. apply ok_ret. cbn [feval]. rewrite Hv.
      destruct Ea as [[E1 E2]|[E1 E2]]; rewrite <- E2.
      * rewrite Hx in E1. apply (f_of_bool_inj a false) in E1. subst. rewrite Hy. destruct b; reflexivity.
      * rewrite Hy in E1. apply (f_of_bool_inj b false) in E1. subst. rewrite Hx. f_equal. destruct a; auto.
    + eapply ok_bind; [apply ok_define|]. intros v Hv. apply ok_ret. cbn [feval one] in *. rewrite Hv.
      destruct Ea as [[E1 E2]|[E1 E2]]; rewrite <- E2.
      * rewrite Hx in E1. apply (f_of_bool_inj a true) in E1. subst. rewrite Hy. destruct b; cbn [xorb negb f_of_bool]; ring.
      * rewrite Hy in E1. apply (f_of_bool_inj b true) in E1. subst. rewrite Hx. destruct a; cbn [xorb negb f_of_bool]; ring.
    + apply ok_fail.
  - eapply ok_bind; [apply ok_fresh|]. intros v _.
    eapply ok_bind; [apply ok_dir|]. intros ? Hd. cbn [map exec_solver] in Hd.
    eapply ok_bind; [apply ok_cond|].
    { intros h _. specialize (Hd h). injection Hd as Hd. cbn [feval]. rewrite <- Hd, Hx, Hy.
      change (of_Z 2) with (of_Z (1 + 1)). rewrite of_Z_add. change (of_Z 1) with f1. ring. }
    intros ? H1. cbn [feval] in H1. apply ok_ret. cbn [feval]. rewrite Hx, Hy in H1.
    transitivity (fsub (fadd (f_of_bool a) (f_of_bool b)) (fmul (fadd (f_of_bool a) (f_of_bool a)) (f_of_bool b))).
    + rewrite H1. ring.
    + destruct a, b; cbn [xorb f_of_bool]; ring.
Qed.
Lemma ok_and_bit : forall (C : Prop) x y a b, feval w x = f_of_bool a -> feval w y = f_of_bool b ->
  OK C (and_bit x y) (fun z => feval w z = f_of_bool (a && b)).
Proof.
  intros C x y a b Hx Hy. unfold and_bit. destruct (as_val x y) as [[n e]|] eqn:Ea.
  - apply as_val_spec in Ea. destruct (Feqb_spec n f0) as [->|Hn]; [|destruct (Feqb_spec n f1) as [->|Hn1]].
    + apply ok_ret. cbn [feval]. destruct Ea as [[E1 E2]|[E1 E2]].
      * rewrite Hx in E1. apply (f_of_bool_inj a false) in E1. subst. reflexivity.
      * rewrite Hy in E1. apply (f_of_bool_inj b false) in E1. subst. rewrite andb_false_r. reflexivity.
    + apply ok_ret. destruct Ea as [[E1 E2]|[E1 E2]]; rewrite <- E2.
      * rewrite Hx in E1. apply (f_of_bool_inj a true) in E1. subst. auto.
      * rewrite Hy in E1. apply (f_of_bool_inj b true) in E1. subst. rewrite andb_true_r. auto.
    + apply ok_fail.
  - eapply ok_bind; [apply ok_define|]. intros v Hv. apply ok_ret. cbn [feval] in *. rewrite Hv, Hx, Hy.
    destruct a, b; cbn [andb f_of_bool]; ring.
Qed.
Lemma ok_or_bit : forall (C : Prop) x y a b, feval w x = f_of_bool a -> feval w y = f_of_bool b ->
  OK C (or_bit x y) (fun z => feval w z = f_of_bool (a || b)).
Proof.
  intros C x y a b Hx Hy. unfold or_bit. destruct (as_val x y) as [[n e]|] eqn:Ea.
  - apply as_val_spec in Ea. destruct (Feqb_spec n f0) as [->|Hn]; [|destruct (Feqb_spec n f1) as [->|Hn1]].
    + eapply ok_bind; [apply ok_define|]. intros v Hv. apply ok_ret. cbn [feval]. rewrite Hv.
      destruct Ea as [[E1 E2]|[E1 E2]]; rewrite <- E2.
      * rewrite Hx in E1. apply (f_of_bool_inj a false) in E1. subst. auto.
      * rewrite Hy in E1. apply (f_of_bool_inj b false) in E1. subst. rewrite orb_false_r. auto.
    + apply ok_ret. cbn [feval one]. destruct Ea as [[E1 E2]|[E1 E2]].
      * rewrite Hx in E1. apply (f_of_bool_inj a true) in E1. subst. auto.
      * rewrite Hy in E1. apply (f_of_bool_inj b true) in E1. subst. rewrite orb_true_r. auto.
    + apply ok_fail.
  - apply ok_or_flat; auto.
Qed.
Lemma ok_not_bit : forall (C : Prop) x a, feval w x = f_of_bool a ->
  OK C (not_bit x) (fun z => feval w z = f_of_bool (negb a)).
Proof.
  intros C x a Hx. unfold not_bit. eapply ok_bind; [apply ok_define|]. intros v Hv. apply ok_ret. cbn [feval one] in *.
  rewrite Hv, Hx. destruct a; cbn [negb f_of_bool]; ring.
Qed.
(** l.1622-1645 *)
Lemma ok_ch_bit : forall (C : Prop) x y z a b c, feval w x = f_of_bool a -> feval w y = f_of_bool b -> feval w z = f_of_bool c ->
  OK C (ch_bit x y z) (fun u => feval w u = f_of_bool (xorb (a && b) (negb a && c))).
Proof.
  intros C x y z a b c Hx Hy Hz. unfold ch_bit. eapply ok_bind; [apply ok_fresh|]. intros v _.
  eapply ok_bind; [apply ok_dir|]. intros ? Hd. cbn [map exec_solver] in Hd.
  eapply ok_bind; [apply ok_cond|].
  { intros h _. specialize (Hd h). injection Hd as Hd. cbn [feval]. rewrite <- Hd, Hx, Hy, Hz. ring. }
  intros ? H1. cbn [feval] in H1. apply ok_ret. cbn [feval]. rewrite Hx, Hy, Hz in H1.
  transitivity (fadd (fmul (f_of_bool a) (fsub (f_of_bool b) (f_of_bool c))) (f_of_bool c)).
  - rewrite H1. ring.
  - destruct a, b, c; cbn [xorb andb negb f_of_bool]; ring.
Qed.
(** l.1695-1732 *)
Lemma ok_maj_bit : forall (C : Prop) x y z a b c, feval w x = f_of_bool a -> feval w y = f_of_bool b -> feval w z = f_of_bool c ->
  OK C (maj_bit x y z) (fun u => feval w u = f_of_bool (xorb (xorb (a && b) (a && c)) (b && c))).
Proof.
  intros C x y z a b c Hx Hy Hz. unfold maj_bit. eapply ok_bind; [apply ok_fresh|]. intros v _.
  eapply ok_bind; [apply ok_fresh|]. intros bc _.
  eapply ok_bind; [apply ok_dir|]. intros ? Hd. cbn [map exec_solver] in Hd.
  eapply ok_bind; [apply ok_def|]. intros ? Hbc. cbn [feval] in Hbc.
  eapply ok_bind; [apply ok_cond|].
  { intros h _. specialize (Hd h). injection Hd as Hd. cbn [feval]. rewrite Hbc, <- Hd, Hx, Hy, Hz.
    change (of_Z 2) with (of_Z (1 + 1)). rewrite of_Z_add. change (of_Z 1) with f1. ring. }
  intros ? H1. cbn [feval] in H1. apply ok_ret. cbn [feval]. rewrite Hbc, Hx, Hy, Hz in H1.
  transitivity (fsub (fmul (f_of_bool b) (f_of_bool c))
    (fmul (fsub (fadd (fmul (f_of_bool b) (f_of_bool c)) (fmul (f_of_bool b) (f_of_bool c))) (fadd (f_of_bool b) (f_of_bool c))) (f_of_bool a))).
  - rewrite H1. ring.
  - destruct a, b, c; cbn [xorb andb negb f_of_bool]; ring.
Qed.

(** l.1285-1356 *)
Lemma ok_euclid : forall (C : Prop) n l r, (S n < required_bits)%nat -> (2 * n < required_bits)%nat ->
  fval (feval w l) < pow2 n -> fval (feval w r) < pow2 n -> (HON -> C -> fval (feval w r) <> 0) ->
  OK C (euclid n l r) (fun qr => fval (feval w r) <> 0 /\
    feval w (fst qr) = of_Z (fval (feval w l) / fval (feval w r)) /\
    feval w (snd qr) = of_Z (fval (feval w l) mod fval (feval w r))).
Proof.
  intros C n l r Hn1 Hn2 Hl Hr HC. unfold euclid.
  eapply ok_bind; [apply ok_linearise|]. intros nl [En _]. eapply ok_bind; [apply ok_linearise|]. intros dl [Ed _].
  eapply ok_bind; [apply ok_fresh|]. intros q _. eapply ok_bind; [apply ok_fresh|]. intros rr _.
  pose proof (fval_range (feval w l)) as Hlr. pose proof (fval_range (feval w r)) as Hrr.
  set (a := fval (feval w l)) in *. set (d := fval (feval w r)) in *.
  pose proof (pow2_small_lt_pp (S n) Hn1) as Hps. rewrite pow2_S in Hps. pose proof (pow2_pos n) as Hpn.
  assert (Hp2 : pow2 n * pow2 n <= pp) by (rewrite <- pow2_add; apply pow2_small_lt_pp; lia).
  eapply ok_bind; [apply ok_dir|]. intros ? Hd. cbn [map exec_solver] in Hd. rewrite En, Ed in Hd. fold a in Hd. fold d in Hd.
  assert (Hq : HON -> C -> fval (w q) = a / d /\ fval (w rr) = a mod d /\ 0 < d).
  { intros h hc. specialize (Hd h). specialize (HC h hc). fold d in HC. destruct (Z.eqb_spec d 0) as [E0|_]; [contradiction|].
    injection Hd as E1 E2. rewrite <- E1, <- E2.
    assert (0 <= a / d <= a) by (split; [apply Z.div_pos; lia|apply Z.div_le_upper_bound; nia]).
    pose proof (Z.mod_pos_bound a d). pose proof (Z.div_mod a d). replace (a - d * (a / d)) with (a mod d) by lia.
    rewrite !fval_of_Z_small by lia. lia. }
  assert (Hdiv : 0 < d -> 0 <= a / d <= a) by (intros; split; [apply Z.div_pos; lia|apply Z.div_le_upper_bound; nia]).
  assert (Hget : forall k, (HON -> C -> fval (feval w k) < pow2 n) ->
            OK C (get_bits (UF k None) n n eSum) (fun _ => fval (feval w k) < pow2 n)).
  { intros k Hk. eapply ok_weaken; [apply ok_get_bits; [right; auto|]|].
    - rewrite Nat.max_id. auto.
    - intros bits [Hlen [bs [Hbs [Hbl [Hh [Hv _]]]]]]. pose proof (bv_range bs) as Hbr. rewrite <- (EB_length w _ _ Hbs), Hlen in Hbr.
      rewrite Nat.leb_refl, Hlen in Hv. destruct Hv as [_ Hv]; [lia|auto]. }
  eapply ok_bind; [apply Hget|].
  { intros h hc. cbn [feval]. destruct (Hq h hc) as [-> [_ Hd0]]. specialize (Hdiv Hd0). lia. }
  intros ? Hqb. cbn [feval] in Hqb.
  eapply ok_bind; [apply Hget|].
  { intros h hc. cbn [feval]. destruct (Hq h hc) as [_ [-> Hd0]]. pose proof (Z.mod_pos_bound a d Hd0). lia. }
  intros ? Hrb. cbn [feval] in Hrb. pose proof (fval_range (w q)) as Hqr. pose proof (fval_range (w rr)) as Hrrr.
  assert (Hk : fval (feval w (XAdd (XSub (XId rr) dl) (XVal (of_Z (pow2 n))))) = fval (w rr) - d + pow2 n).
  { cbn [feval]. rewrite Ed. replace (fadd (fsub (w rr) (feval w r)) (of_Z (pow2 n))) with (fadd (of_Z (pow2 n)) (fsub (w rr) (feval w r))) by ring.
    rewrite fval_off; fold d; lia. }
  eapply ok_bind; [apply Hget|].
  { intros h hc. rewrite Hk. destruct (Hq h hc) as [_ [-> Hd0]]. pose proof (Z.mod_pos_bound a d Hd0). lia. }
  intros ? Hdb. cbn beta in Hdb. rewrite Hk in Hdb.
  eapply ok_bind; [apply ok_cond|].
  { intros h hc. cbn [feval]. destruct (Hq h hc) as [Eq [Er Hd0]]. rewrite En, Ed.
    assert (E : feval w l = of_Z (d * (a / d) + a mod d)) by (rewrite <- Z.div_mod by lia; unfold a; rewrite of_Z_fval; auto).
    rewrite E, of_Z_add, of_Z_mul, <- Eq, <- Er, !of_Z_fval. unfold d. rewrite of_Z_fval. ring. }
  intros ? Hc. cbn [feval] in Hc. rewrite En, Ed in Hc. apply ok_ret. cbn [fst snd feval].
  assert (Hint : a = fval (w q) * d + fval (w rr)).
  { assert (E : feval w l = fadd (fmul (w q) (feval w r)) (w rr)) by (rewrite Hc; ring).
    assert (E' : of_Z a = of_Z (fval (w q) * d + fval (w rr))).
    { rewrite of_Z_add, of_Z_mul. unfold a, d. rewrite !of_Z_fval. auto. }
    apply of_Z_inj_small in E'; auto. nia. }
  assert (Hd0 : d <> 0) by lia. split; [auto|].
  assert (E1 : a / d = fval (w q)) by (symmetry; apply (Z.div_unique_pos a d (fval (w q)) (fval (w rr))); lia).
  assert (E2 : a mod d = fval (w rr)) by (symmetry; apply (Z.mod_unique_pos a d (fval (w q)) (fval (w rr))); lia).
  rewrite E1, E2, !of_Z_fval. auto.
Qed.

(** l.2163-2225 *)
Fixpoint fpow (x : F) (n : nat) : F := match n with O => f1 | S k => fmul x (fpow x k) end.
Lemma fpow_Z : forall x n, fpow x n = of_Z (fval x ^ Z.of_nat n).
Proof.
  intros x. induction n as [|n IH]; [reflexivity|]. rewrite Nat2Z.inj_succ, Z.pow_succ_r by lia. cbn [fpow].
  rewrite IH, of_Z_mul, of_Z_fval. reflexivity.
Qed.
Lemma fpow_add : forall x a b, fpow x (a + b) = fmul (fpow x a) (fpow x b).
Proof. intros x. induction a as [|a IH]; intros b; cbn [Nat.add fpow]; [ring|rewrite IH; ring]. Qed.
Fixpoint powers_ok (x : F) (n : nat) (ps : list fexp) : Prop :=
  match ps with [] => True | p :: r => feval w p = fpow x n /\ powers_ok x (n + n) r end.
Lemma ok_pow_squares : forall (C : Prop) x rest prev n, feval w prev = fpow x n ->
  OK C (pow_squares prev rest) (fun ps => length ps = length rest /\ powers_ok x (n + n) ps).
Proof.
  intros C x. induction rest as [|b r IH]; intros prev n Hp; cbn [pow_squares].
  - apply ok_ret. cbn; auto.
  - eapply ok_bind; [apply ok_newdef|]. intros v Hv. cbn [feval] in Hv. rewrite Hp, <- fpow_add in Hv.
    eapply ok_bind; [apply (IH (XId v) (n + n)%nat); auto|]. intros ps [Hl Hps]. apply ok_ret. cbn; auto.
Qed.
Fixpoint bits_val (bs : list bool) : nat := match bs with [] => 0 | b :: r => (if b then 1 else 0) + 2 * bits_val r end.
Lemma ok_pow_fold : forall (C : Prop) x bits ps acc n a, length ps = length bits -> powers_ok x n ps -> feval w acc = fpow x a ->
  OK C (pow_fold acc bits ps) (fun r => feval w r = fpow x (a + n * bits_val bits) /\
     is_val r = match acc with XVal _ => negb (existsb (fun b => b) bits) | _ => false end).
Proof.
  intros C x. induction bits as [|b r IH]; intros ps acc n a Hl Hp Ha.
  - cbn [pow_fold bits_val existsb negb]. apply ok_ret. rewrite Nat.mul_0_r, Nat.add_0_r. destruct acc; auto.
  - destruct ps as [|p ps]; [discriminate|]. cbn [length] in Hl. destruct Hp as [Hp Hps]. destruct b; cbn [pow_fold].
    + eapply ok_bind; [apply ok_newdef|]. intros v Hv. cbn [feval] in Hv. rewrite Ha, Hp, <- fpow_add in Hv.
      eapply ok_weaken; [apply (IH ps (XId v) (n + n)%nat (a + n)%nat); auto|]. cbn beta. intros z [Hz Hz2]. split.
      * rewrite Hz. f_equal. cbn [bits_val]. lia.
      * rewrite Hz2. cbn [existsb orb negb]. destruct acc; auto.
    + eapply ok_weaken; [apply (IH ps acc (n + n)%nat a); auto|]. cbn beta. intros z [Hz Hz2]. split.
      * rewrite Hz. f_equal. cbn [bits_val]. lia.
      * rewrite Hz2. reflexivity.
Qed.
Lemma exp_bits_val : forall n, bits_val (exp_bits n) = N.to_nat n.
Proof.
  intros [|p]; [reflexivity|]. cbn [exp_bits N.to_nat]. induction p; cbn [pos_bits bits_val]; rewrite ?IHp; lia.
Qed.
Lemma exp_bits_ex : forall n, existsb (fun b => b) (exp_bits n) = negb (N.eqb n 0).
Proof. intros [|p]; [reflexivity|]. cbn [exp_bits N.eqb negb]. induction p; cbn; auto. Qed.
Lemma ok_pow : forall (C : Prop) b n,
  OK C (ps <- pow_powers b (exp_bits n) ;; pow_fold one (exp_bits n) ps)
    (fun r => feval w r = of_Z (fval (feval w b) ^ Z.of_N n) /\ is_val r = N.eqb n 0).
Proof.
  intros C b n.
  assert (Hpw : OK C (pow_powers b (exp_bits n)) (fun ps => length ps = length (exp_bits n) /\ powers_ok (feval w b) 1 ps)).
  { unfold pow_powers.
    destruct (exp_bits n) as [|x r]; [apply ok_ret; cbn; auto|].
    eapply ok_bind; [apply (ok_pow_squares C (feval w b) r b 1)|]. { cbn [fpow]. ring. }
    intros vs [Hl Hv]. apply ok_ret. cbn [length powers_ok fpow]. split; [lia|]. split; [ring|auto]. }
  eapply ok_bind; [exact Hpw|].
  intros ps [Hl Hp]. eapply ok_weaken; [apply (ok_pow_fold C (feval w b) (exp_bits n) ps one 1 0 Hl Hp); reflexivity|].
  cbn beta. intros r [Hr1 Hr2]. split.
  - rewrite Hr1, exp_bits_val, fpow_Z. f_equal. f_equal. lia.
  - rewrite Hr2. cbn [one]. rewrite exp_bits_ex, negb_involutive. reflexivity.
Qed.
End Gadgets.
