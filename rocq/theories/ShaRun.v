(** What the functions of Sha.v compute. *)
From Coq Require Import String Ascii.
From Coq Require Import ZArith NArith List Bool Lia.
From Verif Require Import Bytes Sha256.
From Verif Require Import PField Concrete Interp Bits Flat Zir Codegen Str Abi Typed Writes Src SrcTy Std StdRun Sha.
Import ListNotations.
Open Scope list_scope.
Open Scope Z_scope.

(** ** Words *)
Definition is32 (x : Z) : Prop := 0 <= x < 2 ^ 32.
Lemma is32_add : forall x y, is32 (add32 x y).
Proof. intros x y. unfold is32, add32, w32. apply Z.mod_pos_bound. reflexivity. Qed.
Lemma w32_small : forall x, is32 x -> w32 x = x.
Proof. intros x H. unfold w32. apply Z.mod_small. exact H. Qed.
Lemma rotr_eq : forall n x, is32 x -> 0 <= n <= 32 -> Z.lor (x / 2 ^ n) ((x * 2 ^ (32 - n)) mod 2 ^ 32) = rotr n x.
Proof.
  intros n x Hx Hn. unfold rotr, w32. rewrite <- !Z.land_ones by lia. rewrite Z.land_lor_distr_l, Z.shiftl_mul_pow2 by lia. f_equal. rewrite Z.shiftr_div_pow2 by lia. rewrite Z.land_ones by lia. symmetry. apply Z.mod_small. unfold is32 in Hx.
  assert (0 < 2 ^ n) by (apply Z.pow_pos_nonneg; lia). split; [apply Z.div_pos; lia|]. apply Z.le_lt_trans with x; [|lia]. apply Z.div_le_upper_bound; [lia|]. nia.
Qed.
Lemma wrap32 : forall x, wrap 32 x = w32 x. Proof. reflexivity. Qed.
Lemma add32_l : forall x y, w32 (w32 x + y) = w32 (x + y).
Proof. intros x y. unfold w32. apply Zplus_mod_idemp_l. Qed.
Lemma add32_r : forall x y, w32 (x + w32 y) = w32 (x + y).
Proof. intros x y. unfold w32. apply Zplus_mod_idemp_r. Qed.
Lemma sum5 : forall h s c q w, w32 (w32 (w32 (w32 (h + s) + c) + q) + w) = add32 (add32 (add32 h s) c) (add32 q w).
Proof. intros h s c q w. unfold add32. rewrite (add32_l (h + s) c), (add32_l (h + s + c) q), (add32_l (h + s + c + q) w), add32_l, add32_r. f_equal. ring. Qed.
Lemma sum4 : forall a s0 c s1, w32 (w32 (w32 (a + s0) + c) + s1) = add32 (add32 s1 c) (add32 s0 a).
Proof. intros a s0 c s1. unfold add32. rewrite (add32_l (a + s0) c), (add32_l (a + s0 + c) s1), add32_l, add32_r. f_equal. ring. Qed.
(** the compression function on words *)
Definition schedule (ws : list Z) : list Z := rev (expand 48 (rev ws)).
Definition compressw (h ws : list Z) : list Z := map (fun xy => add32 (fst xy) (snd xy)) (combine h (fold_left round (combine sha_k (schedule ws)) h)).
Lemma compress_words : forall h block, compress h block = compressw h (map (fun c => bev c 0) (Sha256.chunks 16 4 block)).
Proof. intros h block. unfold compress, compressw, schedule. cbv zeta. exact eq_refl. Qed.
Definition next (ws : list Z) : Z := add32 (add32 (ssig1 (nth 1 ws 0)) (nth 6 ws 0)) (add32 (ssig0 (nth 14 ws 0)) (nth 15 ws 0)).
Lemma expand_S : forall n ws, expand (S n) ws = next (expand n ws) :: expand n ws.
Proof. induction n as [|n IH]; intros ws; [reflexivity|]. change (expand (S (S n)) ws) with (expand (S n) (next ws :: ws)). rewrite IH. reflexivity. Qed.
Lemma expand_length : forall n ws, length (expand n ws) = (n + length ws)%nat.
Proof. induction n as [|n IH]; intros ws; [reflexivity|]. rewrite expand_S. cbn [length]. rewrite IH. reflexivity. Qed.
Lemma expand_32 : forall n ws, Forall is32 ws -> Forall is32 (expand n ws).
Proof. induction n as [|n IH]; intros ws H; [exact H|]. rewrite expand_S. constructor; [apply is32_add|apply IH; exact H]. Qed.
Lemma expand_app : forall n m ws, (n <= m)%nat -> exists p, length p = (m - n)%nat /\ expand m ws = p ++ expand n ws.
Proof.
  intros n m ws H. induction m as [|m IH]; [exists []; replace n with 0%nat by lia; auto|]. destruct (Nat.eq_dec n (S m)) as [->|Ne]; [exists []; split; [cbn; lia|reflexivity]|]. destruct IH as [p [L E]]; [lia|]. exists (next (expand m ws) :: p). split; [cbn [length]; lia|]. rewrite expand_S, E. reflexivity.
Qed.

Section Run.
Context {PF : PrimeField}.
Definition uarr_ (us : list Z) : value_ := VArray (map (VUint W32) us).
Lemma rotr_ev : forall k rho n e x, ev (scall sha (S k)) rho e (VUint W32 x) -> is32 x -> 0 <= n <= 32 -> ev (scall sha (S k)) rho (rotr_ n e) (VUint W32 (rotr n x)).
Proof.
  intros k rho n e x H Hx Hn. unfold rotr_. eapply ev_call; [apply evs_cons; [unfold ul; eapply ev_op; [apply evs_nil|reflexivity]|apply evs_nil]|apply evs_cons; [exact H|apply evs_nil]|reflexivity|].
  eapply call_here.
  - apply sha_intro; [|reflexivity|reflexivity]. unfold sha_sig, g_rotr. destruct (Z.leb_spec 0 n) as [_|]; [|lia]. destruct (Z.leb_spec n 32) as [_|]; [|lia]. cbn [andb]. unfold rotr32. reflexivity.
  - reflexivity.
  - reflexivity.
  - apply exs_nil.
  - unfold uor_, shr_, shl_, usub_, ul, uv, iv. eapply ev_op; [apply evs_cons; [|apply evs_cons; [|apply evs_nil]]|].
    + eapply ev_par; [eapply ev_id; look|apply evs_cons; [eapply ev_id; look|apply evs_nil]|reflexivity|reflexivity|reflexivity].
    + eapply ev_par; [eapply ev_id; look|apply evs_cons; [eapply ev_op; [apply evs_cons; [eapply ev_op; [apply evs_nil|reflexivity]|apply evs_cons; [eapply ev_id; look|apply evs_nil]]|reflexivity]|apply evs_nil]|reflexivity|reflexivity|reflexivity].
    + cbn [sem_op sem_uop of_opt option_map]. rewrite <- (rotr_eq n x Hx Hn). change (uwn W32) with 32%nat. change (bits_of W32) with 32. rewrite wrap32, w32_small by (unfold is32; lia). rewrite !Z2Nat.id by lia. reflexivity.
Qed.
Lemma lits_evs : forall call rho l, evs call rho (map ul l) (map (VUint W32) l).
Proof. intros call rho. induction l as [|z l IH]; [apply evs_nil|]. cbn [map]. apply evs_cons; [|exact IH]. eapply ev_op; [apply evs_nil|reflexivity]. Qed.
Lemma spread_each : forall (A : Type) (l : list A) vs, length l = length vs -> spread (map (fun _ => false) l) vs = Some vs.
Proof. intros A. induction l as [|x l IH]; intros [|v vs] L; try discriminate L; [reflexivity|]. injection L as L. cbn [map spread]. rewrite (IH vs L). reflexivity. Qed.
Lemma lits_ev : forall call rho l, ev call rho (lits l) (uarr_ l).
Proof. intros call rho l. unfold lits. eapply ev_op; [apply lits_evs|]. cbn [sem_op]. rewrite spread_each by (rewrite map_length; reflexivity). reflexivity. Qed.
Lemma shr_eq : forall n x, 0 <= n -> x / 2 ^ n = shr n x.
Proof. intros n x H. unfold shr. rewrite Z.shiftr_div_pow2 by exact H. reflexivity. Qed.
End Run.
Ltac runw t := lazymatch goal with
  | |- evs _ _ [] _ => apply evs_nil
  | |- evs _ _ (_ :: _) _ => eapply evs_cons; [runw t|runw t]
  | |- ev _ _ (SId _ _) _ => eapply ev_id; look
  | |- ev _ _ (SOp (OSel _) [_; _]) _ => t
  | |- ev _ _ (SOp _ _) _ => eapply ev_op; [runw t|try reflexivity]
  | |- ev _ _ (SPar _ _ _) _ => eapply ev_par; [runw t|runw t|reflexivity| reflexivity|reflexivity]
  | |- ev _ _ (rotr_ _ _) _ => eapply rotr_ev; [runw t| |lia]
  | |- _ => t
  end.
Ltac run2 := runw idtac.
Section Fun.
Context {PF : PrimeField}.
Definition t1 (e f g h k w : Z) : Z := add32 (add32 (add32 h (bsig1 e)) (ch e f g)) (add32 k w).
Definition t2 (a b c : Z) : Z := add32 (bsig0 a) (maj a b c).
Lemma temp1_call : forall k e f g h q w, is32 e -> scall sha (S (S k)) g_temp1 [] [U32; U32; U32; U32; U32; U32] U32 (map (VUint W32) [e; f; g; h; q; w]) = Ok ([], VUint W32 (t1 e f g h q w)).
Proof.
  intros k e f g h q w He. eapply call_here; [apply sha_intro; [reflexivity|reflexivity|reflexivity]|reflexivity|reflexivity| |].
  - eapply exs_cons; [eapply ex_def; unfold uxor_, uand_, unot_, uv, iv; run2|]. eapply exs_cons; [eapply ex_def; unfold uxor_, uv, iv; run2; exact He|]. apply exs_nil.
  - unfold uadd_, uv, iv. eapply ev_op; [run2|]. cbn [sem_op sem_uop of_opt option_map uwn]. do 3 f_equal. rewrite !wrap32. rewrite sum5. unfold t1, bsig1, ch, not32. reflexivity.
Qed.
Lemma temp2_call : forall k a b c, is32 a -> scall sha (S (S k)) g_temp2 [] [U32; U32; U32] U32 (map (VUint W32) [a; b; c]) = Ok ([], VUint W32 (t2 a b c)).
Proof.
  intros k a b c Ha. eapply call_here; [apply sha_intro; [reflexivity|reflexivity|reflexivity]|reflexivity|reflexivity| |].
  - eapply exs_cons; [eapply ex_def; unfold uxor_, uand_, unot_, uv, iv; run2|]. eapply exs_cons; [eapply ex_def; unfold uxor_, uv, iv; run2; exact Ha|]. apply exs_nil.
  - unfold uadd_, uv, iv. eapply ev_op; [run2|]. reflexivity.
Qed.
Lemma w_ev : forall call rho ws i k x, rho (src 0) = Some (uarr_ ws) -> rho (src 1) = Some (VUint W32 i) -> 0 <= k <= i -> i < 2 ^ 32 -> nth_error ws (Z.to_nat (i - k)) = Some x -> ev call rho (w_ k) (VUint W32 x).
Proof.
  intros call rho ws i k x H0 H1 Hk Hi Hx. unfold w_, sel_, usub_, ul, uv, iv. eapply ev_sel.
  - eapply ev_id. exact H0.
  - eapply ev_op; [apply evs_cons; [eapply ev_id; exact H1|apply evs_cons; [eapply ev_op; [apply evs_nil|reflexivity]|apply evs_nil]]|]. cbn [sem_op sem_uop of_opt option_map uwn]. rewrite wrap32, w32_small by (unfold is32; lia). reflexivity.
  - lia.
  - rewrite nth_error_map, Hx. reflexivity.
Qed.
Lemma extend_call : forall k ws i a b c d, 16 <= i < 2 ^ 32 -> nth_error ws (Z.to_nat (i - 16)) = Some a -> nth_error ws (Z.to_nat (i - 15)) = Some b -> nth_error ws (Z.to_nat (i - 7)) = Some c -> nth_error ws (Z.to_nat (i - 2)) = Some d -> is32 b -> is32 d ->
  scall sha (S (S k)) g_extend [] [u32s 64; U32] U32 [uarr_ ws; VUint W32 i] = Ok ([], VUint W32 (add32 (add32 (ssig1 d) c) (add32 (ssig0 b) a))).
Proof.
  intros k ws i a b c d Hi Ha Hb Hc Hd Rb Rd. eapply call_here; [apply sha_intro; [reflexivity|reflexivity|reflexivity]|reflexivity|reflexivity| |].
  - eapply exs_cons; [eapply ex_def|]. 2: eapply exs_cons; [eapply ex_def|apply exs_nil].
    + unfold uxor_, shr_, ul. runw ltac:(eapply (w_ev _ _ ws i 15 b); [look|look|lia|lia|exact Hb]); exact Rb.
    + unfold uxor_, shr_, ul. runw ltac:(eapply (w_ev _ _ ws i 2 d); [look|look|lia|lia|exact Hd]); exact Rd.
  - unfold uadd_, uv, iv. eapply ev_op; [runw ltac:(idtac; lazymatch goal with |- ev _ _ (w_ 16) _ => eapply (w_ev _ _ ws i 16 a); [look|look|lia|lia|exact Ha] | |- _ => eapply (w_ev _ _ ws i 7 c); [look|look|lia|lia|exact Hc] end)|]. cbn [sem_op sem_uop of_opt option_map uwn]. do 3 f_equal. rewrite !wrap32. rewrite sum4. change (Z.of_nat (Z.to_nat 3)) with 3. change (Z.of_nat (Z.to_nat 10)) with 10. rewrite !shr_eq by lia. unfold ssig0, ssig1. reflexivity.
Qed.
End Fun.
