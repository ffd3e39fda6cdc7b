(** What the functions of the standard library compute (Std.v). *)
From Coq Require Import String Ascii.
From Coq Require Import ZArith NArith List Bool Lia Field.
From Verif Require Import PField Concrete Interp Bits Flat Zir Codegen Str Abi Typed Writes Src SrcTy Std StdRun.
Import ListNotations.
Open Scope string_scope.
Open Scope list_scope.
Open Scope Z_scope.

Section Spec.
Context {PF : PrimeField}.
Add Field Fstd : F_field_th.
Definition vbits (bs : list bool) : value_ := VArray (map VBool bs).

Lemma size_of : forall n, len n < 2 ^ 32 -> size_ok (len n) = true.
Proof. intros n H. unfold size_ok, len in *. apply andb_true_intro. split; [apply Z.leb_le|apply Z.ltb_lt]; lia. Qed.
Lemma to_len : forall n, Z.to_nat (len n) = n. Proof. intros n. apply Nat2Z.id. Qed.
Lemma wrap32 : forall z, 0 <= z < 2 ^ 32 -> wrap 32 z = z.
Proof. intros z H. unfold wrap. change (Z.of_nat 32) with 32. apply Z.mod_small. exact H. Qed.
Lemma wrap_sub : forall n j, 0 <= j -> j < n -> n < 2 ^ 32 -> wrap 32 (n - wrap 32 (j + 1)) = n - (j + 1).
Proof. intros n j H1 H2 H3. rewrite (wrap32 (j + 1)) by lia. rewrite wrap32 by lia. reflexivity. Qed.
Lemma skipn_nth : forall A (l : list A) i x, nth_error l i = Some x -> skipn i l = x :: skipn (S i) l.
Proof. intros A. induction l as [|y l IH]; intros [|i] x H; try discriminate H; [injection H as ->; reflexivity|]. cbn [skipn]. exact (IH i x H). Qed.
Lemma bv_skip : forall bs i b, nth_error bs i = Some b -> bv (skipn i bs) = (if b then 2 ^ len (length bs - S i) else 0) + bv (skipn (S i) bs).
Proof. intros bs i b H. rewrite (skipn_nth _ bs i b H), bv_cons. rewrite skipn_length. unfold pow2, len. reflexivity. Qed.
Lemma pow_of_two : forall n, of_Z (fval (of_Z 2 : F) ^ Z.of_N n) = of_Z (2 ^ Z.of_N n).
Proof.
  intros n. pose proof (N2Z.is_nonneg n) as K. generalize dependent (Z.of_N n). apply natlike_ind; [reflexivity|]. intros z Hz IH. rewrite !Z.pow_succ_r by exact Hz. rewrite !of_Z_mul, IH, of_Z_fval. reflexivity.
Qed.
Lemma nth_bit : forall bs i, (i < length bs)%nat -> exists b, nth_error bs i = Some b /\ nth_error (map (@VBool PF) bs) i = Some (VBool b).
Proof. intros bs i H. destruct (nth_error bs i) as [b|] eqn:E; [|apply nth_error_None in E; lia]. exists b. split; [reflexivity|]. rewrite (map_nth_error _ _ _ E). reflexivity. Qed.

(** pack: the number whose binary representation, most significant bit first, is the array *)
Theorem pack_spec : forall k bs, len (length bs) < 2 ^ 32 -> scall std (S k) f_pack [len (length bs)] [bits_ty (length bs)] CField [vbits bs] = Ok ([], VField (of_Z (bv bs))).
Proof.
  intros k bs H. set (n := length bs) in *.
  assert (D : std f_pack [len n] [bits_ty n] CField = Some (pack_ n)).
  { apply std_intro; [cbn [std_sig f_pack]; rewrite (size_of n H), to_len; reflexivity|cbn [tys_eqb ty_eqb bits_ty andb]; rewrite Nat.eqb_refl; reflexivity|reflexivity]. }
  edestruct (ex_for (scall std k) (fun j r => r (src 0) = Some (vbits bs) /\ r (src 1) = Some (VUint W32 (len n)) /\ r (src 2) = Some (VField (of_Z (bv (skipn (n - Z.to_nat j) bs))))))
    with (x := src 3) (a := ul 0) (b := uv 1) (i := 0) (j := len n) (body := [SDef (src 4) U32 (usub_ (uv 1) (uadd_ (uv 3) (ul 1)));
        SDef (src 2) CField (fadd_ (fv 2) (SCond (sel_ CBool (iv (bits_ty n) 0) (uv 4)) (pow2_ (uv 3)) (fl 0)))])
    (rho := rupd (rbind (rbind (fun _ => None) [src 0] [vbits bs]) [src 1] [VUint W32 (len n)]) (src 2) (VField (of_Z 0))) as [r [E [_ [_ P]]]].
  - unfold ul. run1.
  - unfold uv, iv. run1.
  - unfold len. lia.
  - split; [look|]. split; [look|]. change (Z.to_nat 0) with 0%nat. rewrite Nat.sub_0_r. unfold n. rewrite skipn_all. look.
  - intros j r Hj [P0 [P1 P2]]. unfold len in Hj, H. destruct (nth_bit bs (n - S (Z.to_nat j)) ltac:(lia)) as [b [B1 B2]].
    eexists. split.
    + eapply exs_cons; [eapply ex_def; unfold usub_, uadd_, uv, iv, ul; run1|]. eapply exs_cons; [eapply ex_def; unfold fadd_, fv, uv, iv, sel_, pow2_, fl; run1|apply exs_nil].
      * cbn [uwn option_map of_opt obnd sem_uop]. rewrite wrap_sub by (unfold len; lia). unfold len; lia.
      * change (uwn W32) with 32%nat. rewrite wrap_sub by (unfold len; lia). replace (Z.to_nat (len n - (j + 1))) with (n - S (Z.to_nat j))%nat by (unfold len; lia). exact B2.
      * reflexivity.
      * reflexivity.
    + split; [look|]. split; [look|]. rewrite rupd_same. f_equal. f_equal. replace (n - Z.to_nat (j + 1))%nat with (n - S (Z.to_nat j))%nat by lia.
      rewrite (bv_skip bs _ b B1). replace (S (n - S (Z.to_nat j))) with (n - Z.to_nat j)%nat by lia. rewrite of_Z_add. replace (length bs - (n - Z.to_nat j))%nat with (Z.to_nat j) by (unfold n in *; lia). 
      destruct b.
      * cbn [val_f]. rewrite pow_of_two. rewrite Z2N.id by lia. unfold len. rewrite Z2Nat.id by lia. ring.
      * ring.
  - eapply call_here; [exact D|reflexivity|reflexivity| |].
    + cbn [map fst]. eapply exs_cons; [eapply ex_def; unfold fl; run1|]. eapply exs_cons; [exact E|apply exs_nil].
    + unfold fv, iv. eapply ev_id. rewrite P. do 3 f_equal. replace (n - Z.to_nat (len n))%nat with 0%nat by (rewrite to_len; lia). reflexivity.
Qed.

(** ** Unpacking *)
Lemma wide_ok : forall n, (3 <= required_bits)%nat -> (n <= required_bits)%nat -> wide_enough n = true.
Proof.
  intros n H3 Hn. unfold wide_enough. apply andb_true_intro. split; [apply Nat.leb_le; exact Hn|]. apply Z.ltb_lt. pose proof required_bits_bounds as [B _]. unfold pow2 in B.
  assert (L : 2 ^ Z.of_nat (n - 1) <= 2 ^ Z.of_nat (required_bits - 1)) by (apply Z.pow_le_mono_r; lia). destruct (Z.eq_dec (2 ^ Z.of_nat (required_bits - 1)) pp) as [E|E]; [exfalso|lia].
  assert (P : 2 ^ Z.of_nat (required_bits - 1) = 2 * 2 ^ Z.of_nat (required_bits - 2)). { replace (Z.of_nat (required_bits - 1)) with (Z.succ (Z.of_nat (required_bits - 2))) by lia. apply Z.pow_succ_r. lia. }
  assert (Q : 2 <= 2 ^ Z.of_nat (required_bits - 2)) by (change 2 with (2 ^ 1) at 1; apply Z.pow_le_mono_r; lia).
  destruct (Znumtheory.prime_divisors pp pp_prime 2) as [D|[D|[D|D]]]; [exists (2 ^ Z.of_nat (required_bits - 2)); lia|lia|lia|lia|lia].
Qed.
Section Unpack.
Hypothesis Hr : (3 <= required_bits)%nat.
Hypothesis Hs : len required_bits < 2 ^ 32.
Lemma size_req : forall n, (n <= required_bits)%nat -> size_ok (len n) = true.
Proof. intros n H. apply size_of. unfold len in *. lia. Qed.
Lemma d_embed : forall n, (n <= required_bits)%nat -> std f_unpack_embed [len n] [CField] (bits_ty n) = Some (Flat (EUnpack n) (bits_ty n)).
Proof. intros n H. apply std_intro; [cbn [std_sig f_unpack_embed]; rewrite (size_req n H), to_len, (wide_ok n Hr H); reflexivity|reflexivity|cbn [ty_eqb bits_ty andb]; apply Nat.eqb_refl]. Qed.
Lemma d_unchecked : forall n, (n <= required_bits)%nat -> std f_unpack_unchecked [len n] [CField] (bits_ty n) = Some (unpack_unchecked n).
Proof. intros n H. apply std_intro; [cbn [std_sig f_unpack_unchecked]; rewrite (size_req n H), to_len, (wide_ok n Hr H); reflexivity|reflexivity|cbn [ty_eqb bits_ty andb]; apply Nat.eqb_refl]. Qed.
Lemma d_unpack : forall n, (n <= required_bits)%nat -> std f_unpack [len n] [CField] (bits_ty n) = Some (unpack_ n).
Proof. intros n H. apply std_intro; [cbn [std_sig f_unpack]; rewrite (size_req n H), to_len, (wide_ok n Hr H); reflexivity|reflexivity|cbn [ty_eqb bits_ty andb]; apply Nat.eqb_refl]. Qed.
Lemma d_le : forall n, (n <= required_bits)%nat -> std f_bit_array_le [len n] [bits_ty n; bits_ty n] CBool = Some (Flat (EBitLe n) CBool).
Proof. intros n H. apply std_intro; [cbn [std_sig f_bit_array_le]; rewrite (size_req n H), to_len, (proj2 (Nat.leb_le _ _) H); reflexivity|cbn [tys_eqb ty_eqb bits_ty andb]; rewrite Nat.eqb_refl; reflexivity|reflexivity]. Qed.
Theorem unpack_unchecked_spec : forall k n x, (n <= required_bits)%nat ->
  scall std (S (S k)) f_unpack_unchecked [len n] [CField] (bits_ty n) [VField x] = if fval x <? 2 ^ Z.of_nat n then Ok ([], vbits (bits_be n (fval x))) else Failed.
Proof.
  intros k n x H. destruct (fval x <? 2 ^ Z.of_nat n) eqn:E.
  - eapply call_here; [exact (d_unchecked n H)|reflexivity|reflexivity| |].
    + eapply exs_cons; [|apply exs_nil]. eapply ex_def. eapply ev_call; [unfold uv, iv; run1|unfold fv, iv; run1|reflexivity|]. eapply call_flat; [exact (d_embed n H)|]. cbn [sem_emb]. rewrite E. reflexivity.
    + unfold iv. run1.
  - change (scall std (S (S k))) with (fun f gs ts t vs => scall std (S (S k)) f gs ts t vs). cbv beta. cbn [scall]. rewrite (d_unchecked n H). cbn [unpack_unchecked length Nat.eqb andb]. unfold sexecs. cbn [exec_list sexec seval eval_list map fst rbind uv fv iv].
    rewrite rupd_same, rupd_src, rupd_same by discriminate. cbn [of_opt obnd fst snd nums map opt_list]. rewrite (d_embed n H). cbn [sem_emb]. rewrite E. reflexivity.
Qed.
(** unpack: rejects what does not fit *)
Theorem unpack_spec : forall k n x, (n <= required_bits)%nat ->
  scall std (S (S (S k))) f_unpack [len n] [CField] (bits_ty n) [VField x] = if fval x <? 2 ^ Z.of_nat n then Ok ([], vbits (bits_be n (fval x))) else Failed.
Proof.
  intros k n x H. pose proof (unpack_unchecked_spec k n x H) as U. destruct (fval x <? 2 ^ Z.of_nat n) eqn:E.
  - eapply call_here; [exact (d_unpack n H)|reflexivity|reflexivity| |].
    + eapply exs_cons; [eapply ex_def; eapply ev_call; [unfold uv, iv; run1|unfold fv, iv; run1|reflexivity|exact U]|]. eapply exs_cons; [|apply exs_nil]. apply ex_assert. destruct (Nat.ltb_spec n required_bits) as [L|L].
      * unfold bl. run1.
      * assert (n = required_bits) by lia. subst n. pose proof (fval_range x) as R. pose proof required_bits_bounds as [_ B]. unfold pow2 in B. pose proof pp_gt1 as G.
        assert (M : fval (of_Z (-1)) = pp - 1). { rewrite fval_of_Z. replace (-1) with ((pp - 1) + (-1) * pp) by ring. rewrite Z.mod_add by lia. apply Z.mod_small. lia. }
        pose proof (unpack_unchecked_spec k required_bits (of_Z (-1)) H) as U'. rewrite M in U'. destruct (Z.ltb_spec (pp - 1) (2 ^ Z.of_nat required_bits)) as [_|Q]; [|lia].
        eapply ev_call; [unfold uv, iv; run1|eapply evs_cons; [unfold iv; run1|eapply evs_cons; [|apply evs_nil]]|reflexivity|].
        { eapply ev_call; [unfold ul; run1|unfold fl; run1|reflexivity|exact U']. }
        eapply call_flat; [exact (d_le required_bits H)|]. cbn [sem_emb vbits]. 
        assert (BM : forall l, bools (map (@VBool PF) l) = Some l) by (induction l as [|b l IH]; [reflexivity|unfold bools in *; cbn [map opt_list]; rewrite IH; reflexivity]).
        rewrite !BM. cbn [of_opt obnd]. rewrite !bv_bits_be. unfold pow2. rewrite !Z.mod_small by lia. destruct (Z.leb_spec (fval x) (pp - 1)) as [_|Q]; [reflexivity|lia].
    + unfold iv. run1.
  - remember (S (S k)) as k2. cbn [scall]. rewrite (d_unpack n H). cbn [unpack_ length Nat.eqb andb]. unfold sexecs. cbn [exec_list sexec seval eval_list map fst rbind uv fv iv].
    rewrite rupd_same, rupd_src, rupd_same by discriminate. cbn [of_opt obnd fst snd nums map opt_list]. rewrite U. reflexivity.
Qed.
(** field_to_u8, field_to_u16, field_to_u32, field_to_u64: the element modulo 2^w *)
Lemma bools_vbits : forall l, bools (map (@VBool PF) l) = Some l.
Proof. induction l as [|b l IH]; [reflexivity|]. unfold bools in *. cbn [map opt_list]. rewrite IH. reflexivity. Qed.
Lemma d_from : forall w, std f_from_bits [] [bits_ty (uwn w)] (CUint w) = Some (Flat (EFromBits (uwn w)) (CUint w)).
Proof. intros w. apply std_intro; [reflexivity|cbn [tys_eqb ty_eqb bits_ty andb]; rewrite Nat.eqb_refl; reflexivity|cbn [ty_eqb]; apply Nat.eqb_refl]. Qed.
Lemma from_bits_spec : forall k w bs, scall std (S k) f_from_bits [] [bits_ty (uwn w)] (CUint w) [vbits bs] = Ok ([], VUint w (bv bs)).
Proof. intros k w bs. eapply call_flat; [apply d_from|]. unfold vbits. cbn [sem_emb]. rewrite bools_vbits. destruct w; reflexivity. Qed.
Theorem from_field_spec : forall k w x, (uwn w <= required_bits)%nat ->
  scall std (S (S (S (S k)))) f_from_field [] [CField] (CUint w) [VField x] = Ok ([], VUint w (fval x mod 2 ^ Z.of_nat (uwn w))).
Proof.
  intros k w x Hw. set (R := required_bits) in *.
  assert (D : std f_from_field [] [CField] (CUint w) = Some (from_field w)).
  { apply std_intro; [cbn [std_sig f_from_field]; fold R; rewrite (size_req R (Nat.le_refl _)), (wide_ok R Hr (Nat.le_refl _)), (proj2 (Nat.leb_le _ _) Hw); reflexivity|reflexivity|cbn [ty_eqb]; apply Nat.eqb_refl]. }
  pose proof (unpack_spec k R x (Nat.le_refl _)) as U. pose proof (fval_range x) as Rx. pose proof required_bits_bounds as [_ B]. unfold pow2 in B. fold R in B. destruct (Z.ltb_spec (fval x) (2 ^ Z.of_nat R)) as [_|Q]; [|lia].
  assert (L : length (bits_be R (fval x)) = R) by apply bits_be_length. assert (W : (0 < uwn w)%nat) by (destruct w; cbn; lia).
  eapply call_here; [exact D|reflexivity|reflexivity| |].
  - eapply exs_cons; [|apply exs_nil]. eapply ex_def. eapply ev_call; [unfold ul; run1|unfold fv, iv; run1|reflexivity|]. fold R. exact U.
  - eapply ev_call; [run1| |reflexivity|].
    + eapply evs_cons; [|apply evs_nil]. fold R. unfold iv, ul. run1.
      * cbn [par_op]. unfold len. replace ((0 <=? Z.of_nat R - Z.of_nat (uwn w)) && (Z.of_nat R - Z.of_nat (uwn w) <=? Z.of_nat R) && (Z.of_nat R <=? Z.of_nat R) && (Z.of_nat R - (Z.of_nat R - Z.of_nat (uwn w)) =? Z.of_nat (uwn w))) with true; [reflexivity|].
        symmetry. repeat (apply andb_true_intro; split); try (apply Z.leb_le; lia). apply Z.eqb_eq. lia.
      * replace (Z.to_nat (Z.of_nat R - Z.of_nat (uwn w))) with (R - uwn w)%nat by lia. rewrite Nat2Z.id. unfold vbits. cbn [sem_op]. rewrite map_length, L. rewrite (proj2 (Nat.leb_le (R - uwn w) R)), (proj2 (Nat.leb_le R R)) by lia. cbn [andb].
        rewrite skipn_map. rewrite firstn_all2 by (rewrite map_length, skipn_length, L; lia). reflexivity.
    + etransitivity; [exact (from_bits_spec (S (S k)) w (skipn (R - uwn w) (bits_be R (fval x))))|]. do 2 f_equal. f_equal. rewrite bv_skipn by lia. rewrite L, bv_bits_be. unfold pow2. rewrite (Z.mod_small (fval x)) by lia. do 3 f_equal. lia.
Qed.
End Unpack.

(** u8_to_field, u16_to_field, u32_to_field, u64_to_field *)
Lemma to_bits_spec : forall k w x, scall std (S k) f_to_bits [] [CUint w] (bits_ty (uwn w)) [VUint w x] = Ok ([], vbits (bits_be (uwn w) x)).
Proof.
  intros k w x. eapply call_flat; [apply std_intro; [reflexivity|cbn [tys_eqb ty_eqb andb]; rewrite Nat.eqb_refl; reflexivity|cbn [ty_eqb bits_ty andb]; apply Nat.eqb_refl]|]. cbn [sem_emb]. rewrite Nat.eqb_refl. reflexivity.
Qed.
Theorem to_field_spec : forall k w x, 0 <= x < 2 ^ Z.of_nat (uwn w) -> scall std (S (S k)) f_to_field [] [CUint w] CField [VUint w x] = Ok ([], VField (of_Z x)).
Proof.
  intros k w x Hx. set (n := uwn w) in *. set (bs := bits_be n x). assert (L : length bs = n) by apply bits_be_length. assert (N : len n <= 64 /\ 0 < len n) by (unfold len, n; destruct w; cbn; lia).
  assert (D : std f_to_field [] [CUint w] CField = Some (to_field w)). { apply std_intro; [reflexivity|cbn [tys_eqb ty_eqb andb]; rewrite Nat.eqb_refl; reflexivity|reflexivity]. }
  edestruct (ex_for (scall std (S k)) (fun j r => r (src 1) = Some (vbits bs) /\ r (src 2) = Some (VField (of_Z (bv bs - bv (skipn (Z.to_nat j) bs))))))
    with (x := src 3) (a := ul 0) (b := ul (len n)) (i := 0) (j := len n) (body := [SDef (src 4) U32 (usub_ (usub_ (ul (len n)) (uv 3)) (ul 1));
        SDef (src 2) CField (fadd_ (fv 2) (SCond (sel_ CBool (iv (bits_ty n) 1) (uv 3)) (pow2_ (uv 4)) (fl 0)))])
    (rho := rupd (rupd (rbind (fun _ => None) [src 0] [VUint w x]) (src 1) (vbits bs)) (src 2) (VField (of_Z 0))) as [r [E [_ P]]].
  - unfold ul. run1.
  - unfold ul. run1.
  - lia.
  - split; [look|]. change (Z.to_nat 0) with 0%nat. cbn [skipn]. rewrite Z.sub_diag. look.
  - intros j r Hj [P0 P1]. destruct (nth_bit bs (Z.to_nat j) ltac:(unfold len in Hj; lia)) as [b [B1 B2]].
    eexists. split.
    + eapply exs_cons; [eapply ex_def; unfold usub_, uv, iv, ul; run1|]. eapply exs_cons; [eapply ex_def; unfold fadd_, fv, uv, iv, sel_, pow2_, fl; run1|apply exs_nil].
      * lia.
      * exact B2.
      * reflexivity.
      * reflexivity.
    + split; [look|]. rewrite rupd_same. f_equal. f_equal. change (uwn W32) with 32%nat. rewrite (wrap32 (len n - j)) by lia. rewrite wrap32 by lia. rewrite pow_of_two. rewrite Z2N.id by lia.
      rewrite (bv_skip bs _ b B1). replace (Z.to_nat (j + 1)) with (S (Z.to_nat j)) by lia. rewrite L. replace (len (n - S (Z.to_nat j))) with (len n - j - 1) by (unfold len in *; lia).
      destruct b.
      * rewrite <- of_Z_add. f_equal. ring.
      * rewrite <- of_Z_add. f_equal. ring.
  - eapply call_here; [exact D|reflexivity|reflexivity| |].
    + cbn [map fst]. eapply exs_cons; [eapply ex_def; eapply ev_call; [run1|unfold iv; run1|reflexivity|exact (to_bits_spec k w x)]|]. eapply exs_cons; [eapply ex_def; unfold fl; run1|]. eapply exs_cons; [exact E|apply exs_nil].
    + unfold fv, iv. eapply ev_id. rewrite P. do 3 f_equal. rewrite to_len. rewrite <- L at 1. rewrite skipn_all. cbn [bv]. unfold bs. rewrite bv_bits_be. unfold pow2. rewrite Z.mod_small by exact Hx. lia.
Qed.

(** ** Lookups *)
Lemma d_const : forall f ts t d, std_sig f [] ts t = Some (ts, t, d) -> tys_eqb ts ts = true -> ty_eqb t t = true -> std f [] ts t = Some d.
Proof. intros f ts t d. apply std_intro. Qed.
Definition vfs (l : list F) : value_ := VArray (map VField l).
Theorem lookup1_spec : forall k b x0 x1, scall std (S k) f_lookup1 [] [CBool; pt] CField [VBool b; vfs [x0; x1]] = Ok ([], VField (if b then x1 else x0)).
Proof.
  intros k b x0 x1. eapply call_here; [apply d_const; reflexivity|reflexivity|reflexivity| |].
  - eapply exs_cons; [|apply exs_nil]. eapply ex_def. unfold sel_, ul, iv. eapply ev_cond; [run1|eapply ev_sel; [run1|run1|lia|reflexivity]|eapply ev_sel; [run1|run1|lia|reflexivity]|apply if_vf].
  - unfold fv, iv. run1.
Qed.
(** element number b0 + 2 b1 *)
Theorem lookup2_spec : forall k b0 b1 x0 x1 x2 x3, scall std (S k) f_lookup2 [] [bits_ty 2; q4] CField [vbits [b0; b1]; vfs [x0; x1; x2; x3]] =
  Ok ([], VField (if b1 then if b0 then x3 else x2 else if b0 then x1 else x0)).
Proof.
  intros k b0 b1 x0 x1 x2 x3. eapply call_here; [apply d_const; reflexivity|reflexivity|reflexivity| |].
  - eapply exs_cons; [eapply ex_def; unfold fadd_, fsub_, c_, sel_, fl, ul, iv; run1|]; try reflexivity; try lia. eapply exs_cons; [eapply ex_def; unfold fadd_, fsub_, c_, sel_, fl, ul, fv, iv; run1|apply exs_nil]; try reflexivity; try lia.
  - unfold fv, iv. eapply ev_id. rewrite rupd_same. do 2 f_equal. change (of_Z 0) with f0. destruct b0, b1; ring.
Qed.
(** element number b0 + 2 b1, negated if b2 *)
Theorem lookup3_spec : forall k b0 b1 b2 x0 x1 x2 x3, scall std (S (S k)) f_lookup3 [] [bits_ty 3; q4] CField [vbits [b0; b1; b2]; vfs [x0; x1; x2; x3]] =
  Ok ([], VField (let x := if b1 then if b0 then x3 else x2 else if b0 then x1 else x0 in if b2 then fopp x else x)).
Proof.
  intros k b0 b1 b2 x0 x1 x2 x3. eapply call_here; [apply d_const; reflexivity|reflexivity|reflexivity| |].
  - eapply exs_cons; [eapply ex_def; eapply ev_call; [run1| |reflexivity|exact (lookup2_spec k b0 b1 x0 x1 x2 x3)]|].
    + unfold sel_, ul, iv. eapply evs_cons; [|run1]. eapply ev_op; [run1|reflexivity]; try reflexivity; try lia.
    + eapply exs_cons; [eapply ex_def; unfold fsub_, fmul_, sel_, fl, ul, fv, iv; run1|apply exs_nil]; try reflexivity; try lia.
  - unfold fv, iv. eapply ev_id. rewrite rupd_same. do 2 f_equal. cbv zeta. change 2 with (1 + 1). rewrite of_Z_add. change (of_Z 1) with PField.f1. change (of_Z 0) with f0. set (x := if b1 then _ else _). destruct b2; ring.
Qed.
(** ** 256bitsDirectionHelper *)
Definition vus (l : list Z) : value_ := VArray (map (VUint W32) l).
Theorem direction_spec : forall k b l r, scall std (S k) f_direction [] [CBool; u32s 8; u32s 8] (u32s 16) [VBool b; vus l; vus r] = Ok ([], vus (if b then r ++ l else l ++ r)).
Proof.
  intros k b l r. eapply call_here; [apply d_const; reflexivity|reflexivity|reflexivity|apply exs_nil|]. unfold iv. eapply ev_cond; [run1|eapply ev_op; [run1|reflexivity]|eapply ev_op; [run1|reflexivity]|]. unfold vus. rewrite !app_nil_r. destruct b; rewrite map_app; reflexivity.
Qed.

(** ** Arrays of bits and arrays of u32 *)
Definition word (bs : list bool) (i : nat) : Z := bv (firstn 32 (skipn (32 * i) bs)).
Definition words (bs : list bool) (p : nat) : list Z := map (word bs) (seq 0 p).
Lemma put_mid : forall (a b : list value_) x y, put_nth (length a) (put [] y) (a ++ x :: b) = Some (a ++ y :: b).
Proof. induction a as [|z a IH]; intros b x y; [reflexivity|]. cbn [length app put_nth]. rewrite IH. reflexivity. Qed.
Lemma put_at : forall (a b : list value_) x y k, 0 <= k -> Z.to_nat k = length a -> put [PIdx k] y (VArray (a ++ x :: b)) = Some (VArray (a ++ y :: b)).
Proof. intros a b x y k H E. cbn [put]. destruct (Z.leb_spec 0 k) as [_|Q]; [|lia]. rewrite E. pose proof (put_mid a b x y) as Q. cbn [put] in Q. rewrite Q. reflexivity. Qed.
Lemma u32_eq : forall n m, 0 <= m < 2 ^ 32 -> n = m -> value_eqb (@VUint PF W32 n) (VUint W32 (wrap 32 m)) = true.
Proof. intros n m H ->. rewrite (wrap32 m H). cbn [value_eqb]. apply Z.eqb_refl. Qed.
Theorem bits_to_u32s_spec : forall k bs p, length bs = (32 * p)%nat -> len (length bs) < 2 ^ 32 ->
  scall std (S (S k)) f_bits_to_u32s [len (length bs); len p] [bits_ty (length bs)] (u32s p) [vbits bs] = Ok ([], vus (words bs p)).
Proof.
  intros k bs p Hl H. set (n := length bs) in *. assert (Hp : len p < 2 ^ 32) by (unfold len in *; lia).
  assert (D : std f_bits_to_u32s [len n; len p] [bits_ty n] (u32s p) = Some (bits_to_u32s n p)).
  { apply std_intro; [cbn [std_sig f_bits_to_u32s]; rewrite (size_of n H), (size_of p Hp), !to_len; reflexivity|cbn [tys_eqb ty_eqb bits_ty andb]; rewrite Nat.eqb_refl; reflexivity|cbn [ty_eqb u32s U32 uwn Nat.eqb andb]; apply Nat.eqb_refl]. }
  edestruct (ex_for (scall std (S k)) (fun j r => r (src 0) = Some (vbits bs) /\ r (src 2) = Some (VUint W32 (len p)) /\ r (src 3) = Some (VArray (map (VUint W32) (words bs (Z.to_nat j)) ++ repeat (VUint W32 0) (p - Z.to_nat j)))))
    with (x := src 4) (a := ul 0) (b := uv 2) (i := 0) (j := len p)
    (body := [SSet (src 3) (u32s p) [SASel (uv 4)] (SCall [bits_ty 32] U32 f_from_bits [] [SPar (KSlice CBool n 32) (iv (bits_ty n) 0) [umul_ (ul 32) (uv 4); umul_ (ul 32) (uadd_ (uv 4) (ul 1))]])])
    (rho := rupd (rbind (rbind (fun _ => None) [src 0] [vbits bs]) [src 1; src 2] [VUint W32 (len n); VUint W32 (len p)]) (src 3) (VArray (repeat (VUint W32 0) p))) as [r [E [_ [_ P]]]].
  - unfold ul. run1.
  - unfold uv, iv. run1.
  - unfold len. lia.
  - split; [look|]. split; [look|]. change (Z.to_nat 0) with 0%nat. rewrite Nat.sub_0_r. look.
  - intros j r Hj [P0 [P1 P2]]. assert (Hj' : (Z.to_nat j < p)%nat) by (unfold len in Hj; lia).
    eexists. split.
    + eapply exs_cons; [|apply exs_nil]. eapply ex_set.
      * eapply ev_call; [run1| |reflexivity|exact (from_bits_spec k W32 (firstn 32 (skipn (32 * Z.to_nat j) bs)))]. eapply evs_cons; [|apply evs_nil]. unfold iv, umul_, uadd_, uv, iv, ul. run1.
        -- cbn [uwn par_op]. rewrite (wrap32 (j + 1)) by (unfold len in *; lia). rewrite (wrap32 (32 * j)), (wrap32 (32 * (j + 1))) by (unfold len in *; lia). 
           replace ((0 <=? 32 * j) && (32 * j <=? 32 * (j + 1)) && (32 * (j + 1) <=? Z.of_nat n) && (32 * (j + 1) - 32 * j =? Z.of_nat 32)) with true; [reflexivity|].
           symmetry. unfold len in *. repeat (apply andb_true_intro; split); try (apply Z.leb_le; lia). apply Z.eqb_eq. lia.
        -- unfold vbits. cbn [sem_op]. rewrite map_length. fold n. replace (Z.to_nat (32 * j)) with (32 * Z.to_nat j)%nat by lia. replace (Z.to_nat (32 * (j + 1))) with (32 * Z.to_nat j + 32)%nat by lia.
           rewrite (proj2 (Nat.leb_le (32 * Z.to_nat j) _)), (proj2 (Nat.leb_le _ n)) by lia. cbn [andb]. replace (32 * Z.to_nat j + 32 - 32 * Z.to_nat j)%nat with 32%nat by lia. rewrite skipn_map, firstn_map. reflexivity.
      * unfold uv, iv. run1.
      * rewrite rupd_src by discriminate. exact P2.
      * replace (p - Z.to_nat j)%nat with (S (p - Z.to_nat (j + 1))) by lia. cbn [repeat]. apply put_at; [lia|]. unfold words. rewrite !map_length, seq_length. reflexivity.
    + split; [look|]. split; [look|]. rewrite rupd_same. do 2 f_equal. replace (Z.to_nat (j + 1)) with (S (Z.to_nat j)) by lia. unfold words. rewrite seq_S, !map_app, <- app_assoc. reflexivity.
  - eapply call_here; [exact D|reflexivity|reflexivity| |].
    + cbn [map fst]. eapply exs_cons; [apply ex_assert; unfold eq_, umul_, uv, iv, ul; run1; cbn [sem_op uwn sem_uop option_map of_opt]; do 2 f_equal; apply u32_eq; unfold len in *; lia|].
      eapply exs_cons; [eapply ex_def; unfold ul, uv, iv; run1; [cbn [par_op]; unfold len; rewrite Z.eqb_refl; reflexivity|reflexivity]|]. eapply exs_cons; [exact E|apply exs_nil].
    + unfold iv. eapply ev_id. rewrite P. rewrite to_len, Nat.sub_diag. cbn [repeat]. rewrite app_nil_r. reflexivity.
Qed.
Definition bits_of_words (us : list Z) : list bool := flat_map (bits_be 32) us.
Lemma bits_of_words_length : forall us, length (bits_of_words us) = (32 * length us)%nat.
Proof. induction us as [|u us IH]; [reflexivity|]. unfold bits_of_words in *. cbn [flat_map length]. rewrite app_length, IH, bits_be_length. lia. Qed.
Lemma bits_of_words_nth : forall us i j u b, nth_error us i = Some u -> (j < 32)%nat -> nth_error (bits_be 32 u) j = Some b -> nth_error (bits_of_words us) (32 * i + j) = Some b.
Proof.
  induction us as [|v us IH]; intros [|i] j u b H Hj Hb; try discriminate H.
  - injection H as ->. unfold bits_of_words. cbn [flat_map]. rewrite nth_error_app1 by (rewrite bits_be_length; lia). exact Hb.
  - unfold bits_of_words. cbn [flat_map]. rewrite nth_error_app2 by (rewrite bits_be_length; lia). rewrite bits_be_length. replace (32 * S i + j - 32)%nat with (32 * i + j)%nat by lia. exact (IH i j u b H Hj Hb).
Qed.
Lemma firstn_S : forall A (l : list A) m x, nth_error l m = Some x -> firstn (S m) l = firstn m l ++ [x].
Proof. intros A. induction l as [|y l IH]; intros [|m] x H; try discriminate H; [injection H as ->; reflexivity|]. cbn [firstn app]. f_equal. exact (IH m x H). Qed.
Definition partial_bits (T : list bool) (m : nat) : value_ := VArray (map VBool (firstn m T) ++ repeat (VBool false) (length T - m)).
Lemma put_bit : forall T m b k, nth_error T m = Some b -> 0 <= k -> Z.to_nat k = m -> put [PIdx k] (VBool b) (partial_bits T m) = Some (partial_bits T (S m)).
Proof.
  intros T m b k H Hk E. assert (L : (m < length T)%nat) by (apply nth_error_Some; rewrite H; discriminate). unfold partial_bits. replace (length T - m)%nat with (S (length T - S m)) by lia. cbn [repeat]. rewrite (firstn_S _ T m b H), map_app, <- app_assoc. cbn [map app].
  apply put_at; [exact Hk|]. rewrite E, map_length, firstn_length. lia.
Qed.
Theorem u32s_to_bits_spec : forall k us, 32 * len (length us) < 2 ^ 32 ->
  scall std (S (S k)) f_u32s_to_bits [len (length us); len (32 * length us)] [u32s (length us)] (bits_ty (32 * length us)) [vus us] = Ok ([], vbits (bits_of_words us)).
Proof.
  intros k us H. set (n := length us) in *. set (p := (32 * n)%nat) in *. set (T := bits_of_words us). assert (LT : length T = p) by apply bits_of_words_length.
  assert (Hn : len n < 2 ^ 32) by (unfold len in *; lia). assert (Hp : len p < 2 ^ 32) by (unfold len, p in *; lia).
  assert (D : std f_u32s_to_bits [len n; len p] [u32s n] (bits_ty p) = Some (u32s_to_bits n p)).
  { apply std_intro; [cbn [std_sig f_u32s_to_bits]; rewrite (size_of n Hn), (size_of p Hp), !to_len; reflexivity|cbn [tys_eqb ty_eqb u32s U32 uwn Nat.eqb andb]; rewrite Nat.eqb_refl; reflexivity|cbn [ty_eqb bits_ty andb]; apply Nat.eqb_refl]. }
  edestruct (ex_for (scall std (S k)) (fun j r => r (src 0) = Some (vus us) /\ r (src 1) = Some (VUint W32 (len n)) /\ r (src 3) = Some (partial_bits T (32 * Z.to_nat j))))
    with (x := src 4) (a := ul 0) (b := uv 1) (i := 0) (j := len n)
    (body := [SDef (src 5) (bits_ty 32) (SCall [U32] (bits_ty 32) f_to_bits [] [sel_ U32 (iv (u32s n) 0) (uv 4)]);
        SFor (src 6) (ul 0) (ul 32) [SSet (src 3) (bits_ty p) [SASel (uadd_ (umul_ (uv 4) (ul 32)) (uv 6))] (sel_ CBool (iv (bits_ty 32) 5) (uv 6))]])
    (rho := rupd (rbind (rbind (fun _ => None) [src 0] [vus us]) [src 1; src 2] [VUint W32 (len n); VUint W32 (len p)]) (src 3) (VArray (repeat (VBool false) p))) as [r [E [_ [_ P]]]].
  - unfold ul. run1.
  - unfold uv, iv. run1.
  - unfold len. lia.
  - split; [look|]. split; [look|]. rewrite rupd_same. unfold partial_bits. change (32 * Z.to_nat 0)%nat with 0%nat. rewrite Nat.sub_0_r, LT. reflexivity.
  - intros i r Hi [P0 [P1 P2]]. assert (Hi' : (Z.to_nat i < n)%nat) by (unfold len in Hi; lia). destruct (nth_error us (Z.to_nat i)) as [u|] eqn:Eu; [|apply nth_error_None in Eu; fold n in Eu; lia].
    edestruct (ex_for (scall std (S k)) (fun j r => r (src 0) = Some (vus us) /\ r (src 1) = Some (VUint W32 (len n)) /\ r (src 4) = Some (VUint W32 i) /\ r (src 5) = Some (vbits (bits_be 32 u)) /\ r (src 3) = Some (partial_bits T (32 * Z.to_nat i + Z.to_nat j))))
      with (x := src 6) (a := ul 0) (b := ul 32) (i := 0) (j := 32) (body := [SSet (src 3) (bits_ty p) [SASel (uadd_ (umul_ (uv 4) (ul 32)) (uv 6))] (sel_ CBool (iv (bits_ty 32) 5) (uv 6))])
      (rho := rupd (rupd r (src 4) (VUint W32 i)) (src 5) (vbits (bits_be 32 u))) as [r2 [E2 [Q0 [Q1 [_ [_ Q3]]]]]].
    + unfold ul. run1.
    + unfold ul. run1.
    + lia.
    + split; [look|]. split; [look|]. split; [look|]. split; [look|]. change (Z.to_nat 0) with 0%nat. rewrite Nat.add_0_r. look.
    + intros j r2 Hj [Q0 [Q1 [Q2 [Q3 Q4]]]]. destruct (nth_bit (bits_be 32 u) (Z.to_nat j)) as [b [B1 B2]]; [rewrite bits_be_length; lia|]. eexists. split.
      * eapply exs_cons; [|apply exs_nil]. eapply ex_set.
        -- unfold sel_, iv, uv, iv. run1; [lia|exact B2].
        -- unfold uadd_, umul_, uv, iv, ul. run1.
        -- rewrite rupd_src by discriminate. exact Q4.
        -- cbn [uwn]. rewrite (wrap32 (i * 32)) by (unfold len in *; lia). rewrite wrap32 by (unfold len in *; lia). apply put_bit; [|lia|lia]. eapply bits_of_words_nth; [exact Eu|lia|exact B1].
      * split; [look|]. split; [look|]. split; [look|]. split; [look|]. rewrite rupd_same. do 2 f_equal. lia.
    + exists r2. split.
      * eapply exs_cons; [eapply ex_def; eapply ev_call; [run1| |reflexivity|exact (to_bits_spec k W32 u)]|].
        -- eapply evs_cons; [|apply evs_nil]. unfold sel_, iv, uv, iv. run1; [lia|]. rewrite (map_nth_error _ _ _ Eu). reflexivity.
        -- eapply exs_cons; [exact E2|apply exs_nil].
      * split; [exact Q0|]. split; [exact Q1|]. rewrite Q3. do 2 f_equal. lia.
  - eapply call_here; [exact D|reflexivity|reflexivity| |].
    + cbn [map fst]. eapply exs_cons; [apply ex_assert; unfold eq_, umul_, uv, iv, ul; run1; cbn [sem_op uwn sem_uop option_map of_opt]; do 2 f_equal; apply u32_eq; unfold len, p in *; lia|].
      eapply exs_cons; [eapply ex_def; unfold bl, uv, iv; run1; [cbn [par_op]; unfold len; rewrite Z.eqb_refl; reflexivity|reflexivity]|]. eapply exs_cons; [exact E|apply exs_nil].
    + unfold iv. eapply ev_id. rewrite P. rewrite to_len. fold p. unfold partial_bits. rewrite LT, Nat.sub_diag. cbn [repeat]. rewrite app_nil_r. rewrite <- LT, firstn_all. reflexivity.
Qed.
Lemma words_of_bits : forall us, Forall (fun u => 0 <= u < 2 ^ 32) us -> words (bits_of_words us) (length us) = us.
Proof.
  induction us as [|u us IH]; intros H; [reflexivity|]. inversion H as [|? ? H1 H2]; subst. unfold words. cbn [length seq map]. f_equal.
  - unfold word, bits_of_words. cbn [flat_map]. change (32 * 0)%nat with 0%nat. cbn [skipn]. rewrite firstn_app, bits_be_length, Nat.sub_diag. rewrite firstn_O, app_nil_r, firstn_all2 by (rewrite bits_be_length; lia). rewrite bv_bits_be. apply Z.mod_small. exact H1.
  - etransitivity; [|exact (IH H2)]. unfold words. rewrite <- seq_shift, map_map. apply map_ext. intros i. unfold word. f_equal. f_equal. unfold bits_of_words. cbn [flat_map]. rewrite skipn_app, bits_be_length. rewrite skipn_all2 by (rewrite bits_be_length; lia). cbn [app]. f_equal. lia.
Qed.
Lemma skipn_twice : forall A a b (l : list A), skipn a (skipn b l) = skipn (b + a) l.
Proof. intros A a. induction b as [|b IH]; intros [|x l]; try reflexivity; [destruct a; reflexivity|]. cbn [skipn plus]. apply IH. Qed.
Lemma bits_of_words_words : forall p bs, length bs = (32 * p)%nat -> bits_of_words (words bs p) = bs.
Proof.
  induction p as [|p IH]; intros bs H; [destruct bs; [reflexivity|discriminate H]|]. unfold words, bits_of_words. cbn [seq map flat_map].
  assert (L : length (firstn 32 bs) = 32%nat) by (rewrite firstn_length; lia).
  assert (W : bits_be 32 (word bs 0) = firstn 32 bs). { unfold word. change (32 * 0)%nat with 0%nat. cbn [skipn]. rewrite <- L at 1. apply bits_be_bv. }
  rewrite W. etransitivity; [|exact (firstn_skipn 32 bs)]. f_equal. etransitivity; [|apply (IH (skipn 32 bs)); rewrite skipn_length; lia]. unfold bits_of_words, words. f_equal. rewrite <- seq_shift, map_map. apply map_ext. intros i. unfold word. rewrite skipn_twice. do 3 f_equal. lia.
Qed.
Lemma bv_words : forall us, Forall (fun u => 0 <= u < 2 ^ 32) us -> bv (bits_of_words us) = fold_left (fun a u => a * 2 ^ 32 + u) us 0.
Proof.
  intros us H. assert (G : forall us a, Forall (fun u => 0 <= u < 2 ^ 32) us -> a * 2 ^ (32 * len (length us)) + bv (bits_of_words us) = fold_left (fun a u => a * 2 ^ 32 + u) us a).
  { clear. induction us as [|u us IH]; intros a H; [cbn; lia|]. inversion H as [|? ? H1 H2]; subst. cbn [fold_left]. rewrite <- (IH _ H2). unfold bits_of_words at 1. cbn [flat_map]. fold (bits_of_words us). rewrite bv_app, bv_bits_be, bits_of_words_length. unfold pow2. change (2 ^ Z.of_nat 32) with (2 ^ 32). rewrite (Z.mod_small u) by exact H1.
    cbn [length]. replace (Z.of_nat (32 * length us)) with (32 * len (length us)) by (unfold len; lia). replace (32 * len (S (length us))) with (32 + 32 * len (length us)) by (unfold len; lia). rewrite Z.pow_add_r by (unfold len; lia). ring. }
  specialize (G us 0 H). rewrite Z.mul_0_l, Z.add_0_l in G. exact G.
Qed.
(** utils/pack/u32/pack: the words, most significant first *)
Theorem pack_u32_spec : forall k us, 32 * len (length us) < 2 ^ 32 -> Forall (fun u => 0 <= u < 2 ^ 32) us ->
  scall std (S (S (S k))) f_pack_u32 [len (length us)] [u32s (length us)] CField [vus us] = Ok ([], VField (of_Z (fold_left (fun a u => a * 2 ^ 32 + u) us 0))).
Proof.
  intros k us H Hu. rewrite <- (bv_words us Hu). set (n := length us) in *. assert (Hn : len n < 2 ^ 32) by (unfold len in *; lia).
  assert (D : std f_pack_u32 [len n] [u32s n] CField = Some (pack_u32 n)).
  { apply std_intro; [cbn [std_sig f_pack_u32]|cbn [tys_eqb ty_eqb u32s U32 uwn Nat.eqb andb]; rewrite Nat.eqb_refl; reflexivity|reflexivity].
    replace (32 * len n) with (len (32 * n)) by (unfold len; lia). rewrite size_of by (unfold len in *; lia). rewrite to_len. reflexivity. }
  assert (G : forall rho, rho (src 1) = Some (VUint W32 (len n)) -> ev (scall std (S (S k))) rho (umul_ (uv 1) (ul 32)) (VUint W32 (len (32 * n)))).
  { intros rho E. unfold umul_, uv, iv, ul. run1. cbn [sem_op uwn sem_uop option_map of_opt]. do 2 f_equal. rewrite wrap32 by (unfold len in *; lia). unfold len. lia. }
  eapply call_here; [exact D|reflexivity|reflexivity| |].
  - eapply exs_cons; [|apply exs_nil]. eapply ex_def. eapply ev_call; [eapply evs_cons; [unfold uv, iv; run1|eapply evs_cons; [apply G; look|apply evs_nil]]|unfold iv; run1|reflexivity|]. exact (u32s_to_bits_spec k us H).
  - eapply ev_call; [eapply evs_cons; [apply G; look|apply evs_nil]|unfold iv; run1|reflexivity|]. pose proof (pack_spec (S k) (bits_of_words us)) as Q. rewrite bits_of_words_length in Q. fold n in Q. apply Q. unfold len in *. lia.
Qed.
End Spec.
