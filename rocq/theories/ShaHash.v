(** The hash of a list of blocks, the fixed-size functions, padding. *)
From Coq Require Import String Ascii.
From Coq Require Import ZArith NArith List Bool Lia.
From Verif Require Import Bytes Sha256.
From Verif Require Import PField Concrete Interp Bits Flat Zir Codegen Str Abi Typed Writes Src SrcTy Std StdRun StdSpec Sha ShaRun ShaRound.
Import ListNotations.
Open Scope list_scope.
Open Scope Z_scope.

Definition hashw (bs : list (list Z)) : list Z := fold_left compressw bs sha_h0.
Definition block_ok (b : list Z) : Prop := length b = 16%nat /\ Forall is32 b.
Lemma compressw_ok : forall h ws, length h = 8%nat -> Forall is32 h -> length (compressw h ws) = 8%nat /\ Forall is32 (compressw h ws).
Proof.
  intros h ws L H. unfold compressw. destruct (rounds_32 (combine sha_k (schedule ws)) h L H) as [A _]. split; [rewrite map_length, combine_length, A, L; reflexivity|]. apply Forall_forall. intros x J. apply in_map_iff in J as [y [<- _]]. apply is32_add.
Qed.
Lemma h0_32 : Forall is32 sha_h0.
Proof. unfold sha_h0. repeat (constructor; [unfold is32; split; [apply Z.leb_le|apply Z.ltb_lt]; vm_compute; reflexivity|]). constructor. Qed.
Lemma hashw_from : forall bs h, length h = 8%nat -> Forall is32 h -> length (fold_left compressw bs h) = 8%nat /\ Forall is32 (fold_left compressw bs h).
Proof. induction bs as [|b bs IH]; intros h L H; [auto|]. cbn [fold_left]. destruct (compressw_ok h b L H) as [A B]. exact (IH _ A B). Qed.
Lemma hashw_ok : forall bs, length (hashw bs) = 8%nat /\ Forall is32 (hashw bs).
Proof. intros bs. exact (hashw_from bs sha_h0 eq_refl h0_32). Qed.

Section Hash.
Context {PF : PrimeField}.
Definition barr_ (bs : list (list Z)) : value_ := VArray (map uarr_ bs).
Lemma d_sha256 : forall n, len n < 2 ^ 32 -> sha g_sha256 [len n] [blocks n] (u32s 8) = Some (sha256_ n).
Proof. intros n H. apply sha_intro; [cbn [sha_sig g_sha256]; rewrite (size_of n H), to_len; reflexivity|cbn [tys_eqb ty_eqb blocks u32s U32 uwn Nat.eqb andb]; rewrite Nat.eqb_refl; reflexivity|reflexivity]. Qed.
Lemma sha256_call : forall k bs, len (length bs) < 2 ^ 32 -> Forall block_ok bs ->
  scall sha (S (S (S (S k)))) g_sha256 [len (length bs)] [blocks (length bs)] (u32s 8) [barr_ bs] = Ok ([], uarr_ (hashw bs)).
Proof.
  intros k bs H Hb. set (n := length bs) in *. eapply call_here'; [exact (d_sha256 n H)|reflexivity|reflexivity|]. cbn [map fst rbind].
  eapply step; [eapply ex_def; apply lits_ev|].
  eapply step_for with (P := fun r => r (src 2) = Some (uarr_ (hashw bs))).
  - match goal with |- exists r1, ex _ ?rho _ r1 /\ _ => destruct (ex_for (scall sha (S (S (S k)))) (fun i r => r (src 0) = Some (barr_ bs) /\ r (src 2) = Some (uarr_ (hashw (firstn (Z.to_nat i) bs)))) rho (src 3) (ul 0) (uv 1)
      [SDef (src 2) (u32s 8) (SCall [u32s 16; u32s 8] (u32s 8) g_round [] [sel_ (u32s 16) (iv (blocks n) 0) (uv 3); iv (u32s 8) 2])] 0 (len n) W32 W32) as [r [E [_ P2]]] end.
    + unfold ul. run2.
    + unfold uv, iv. run2.
    + unfold len. lia.
    + split; [look|]. look.
    + intros i r Hi [P1 P2]. unfold len in Hi. destruct (nth_error bs (Z.to_nat i)) as [b|] eqn:Eb; [|apply nth_error_None in Eb; fold n in Eb; lia]. assert (Bb : block_ok b) by (rewrite Forall_forall in Hb; apply Hb; exact (nth_error_In _ _ Eb)). destruct Bb as [L W].
      destruct (hashw_ok (firstn (Z.to_nat i) bs)) as [Lh Wh]. eexists. split.
      * eapply exs_cons; [|apply exs_nil]. eapply ex_def. eapply ev_call; [apply evs_nil| |reflexivity|exact (round_call k b _ L Lh W Wh)]. unfold sel_, iv, uv, iv.
        apply evs_cons; [eapply ev_sel; [eapply ev_id; look|eapply ev_id; look|lia|rewrite nth_error_map, Eb; reflexivity]|]. apply evs_cons; [eapply ev_id; look|apply evs_nil].
      * split; [look|]. rewrite rupd_same. replace (Z.to_nat (i + 1)) with (S (Z.to_nat i)) by lia. rewrite (firstn_S _ _ _ _ Eb). unfold hashw. rewrite fold_left_app. reflexivity.
    + exists r. split; [exact E|]. rewrite P2. rewrite to_len. unfold n. rewrite firstn_all. reflexivity.
  - intros r P. apply step_end. unfold iv. eapply ev_id. exact P.
Qed.
Lemma call_sha_ev : forall k rho es bs, Forall2 (fun e b => ev (scall sha (S (S (S (S k))))) rho e (uarr_ b)) es bs -> Forall block_ok bs -> len (length bs) < 2 ^ 32 ->
  ev (scall sha (S (S (S (S k))))) rho (call_sha es) (uarr_ (hashw bs)).
Proof.
  intros k rho es bs H Hb L. assert (Le : length es = length bs) by (clear - H; induction H; cbn; congruence). unfold call_sha. eapply ev_call; [apply evs_cons; [unfold ul; eapply ev_op; [apply evs_nil|reflexivity]|apply evs_nil]|apply evs_cons; [|apply evs_nil]|reflexivity|rewrite Le; exact (sha256_call k bs L Hb)].
  eapply ev_op with (vs := map uarr_ bs); [clear - H; induction H as [|e b es bs E H IH]; [apply evs_nil|cbn [map]; apply evs_cons; [exact E|exact IH]]|]. cbn [sem_op]. rewrite spread_each by (rewrite map_length; exact Le). reflexivity.
Qed.
Lemma two_ev : forall call rho x y a b, rho (src x) = Some (uarr_ a) -> rho (src y) = Some (uarr_ b) -> ev call rho (two_ (h8 x) (h8 y)) (uarr_ (a ++ b)).
Proof. intros call rho x y a b H1 H2. unfold two_, h8, iv. eapply ev_op; [apply evs_cons; [eapply ev_id; exact H1|apply evs_cons; [eapply ev_id; exact H2|apply evs_nil]]|]. unfold uarr_. cbn [sem_op spread option_map of_opt]. rewrite app_nil_r, map_app. reflexivity. Qed.
Definition half (l : list Z) : Prop := length l = 8%nat /\ Forall is32 l.
Lemma halves : forall a b, half a -> half b -> block_ok (a ++ b).
Proof. intros a b [L1 H1] [L2 H2]. split; [rewrite app_length, L1, L2; reflexivity|apply Forall_app; auto]. Qed.
Lemma sha512_call : forall k a b, half a -> half b -> scall sha (S (S (S (S (S k))))) g_512 [] [u32s 8; u32s 8] (u32s 8) [uarr_ a; uarr_ b] = Ok ([], uarr_ (hashw [a ++ b])).
Proof.
  intros k a b Ha Hb. eapply call_here; [apply sha_intro; [reflexivity|reflexivity|reflexivity]|reflexivity|reflexivity|apply exs_nil|]. apply call_sha_ev; [constructor; [apply two_ev; look|constructor]|constructor; [exact (halves _ _ Ha Hb)|constructor]|reflexivity].
Qed.
Lemma sha1024_call : forall k a b c d, half a -> half b -> half c -> half d -> scall sha (S (S (S (S (S k))))) g_1024 [] [u32s 8; u32s 8; u32s 8; u32s 8] (u32s 8) [uarr_ a; uarr_ b; uarr_ c; uarr_ d] = Ok ([], uarr_ (hashw [a ++ b; c ++ d])).
Proof.
  intros k a b c d Ha Hb Hc Hd. eapply call_here; [apply sha_intro; [reflexivity|reflexivity|reflexivity]|reflexivity|reflexivity| |].
  - eapply exs_cons; [|apply exs_nil]. eapply ex_def. apply call_sha_ev with (bs := [a ++ b; c ++ d]); [repeat constructor; apply two_ev; look|repeat constructor; try apply halves; try assumption; apply halves; assumption|reflexivity].
  - unfold h8, iv. eapply ev_id. look.
Qed.
Lemma sha1536_call : forall k a b c d e f, half a -> half b -> half c -> half d -> half e -> half f ->
  scall sha (S (S (S (S (S k))))) g_1536 [] [u32s 8; u32s 8; u32s 8; u32s 8; u32s 8; u32s 8] (u32s 8) [uarr_ a; uarr_ b; uarr_ c; uarr_ d; uarr_ e; uarr_ f] = Ok ([], uarr_ (hashw [a ++ b; c ++ d; e ++ f])).
Proof.
  intros k a b c d e f Ha Hb Hc Hd He Hf. eapply call_here; [apply sha_intro; [reflexivity|reflexivity|reflexivity]|reflexivity|reflexivity| |].
  - eapply exs_cons; [|apply exs_nil]. eapply ex_def. apply call_sha_ev with (bs := [a ++ b; c ++ d; e ++ f]); [repeat constructor; apply two_ev; look|repeat constructor; try apply halves; try assumption; apply halves; assumption|reflexivity].
  - unfold h8, iv. eapply ev_id. look.
Qed.
Definition dum (n : Z) : list Z := [0; 0; 0; 0; 0; 0; 0; n].
Definition dum1 (n : Z) : list Z := [0x80000000; 0; 0; 0; 0; 0; 0; n].
Lemma dum_half : forall n, is32 n -> half (dum n) /\ half (dum1 n).
Proof. intros n H. split; (split; [reflexivity|]); repeat (constructor; [first [exact H|unfold is32; split; [apply Z.leb_le|apply Z.ltb_lt]; vm_compute; reflexivity]|]); constructor. Qed.
Lemma p256_call : forall k a, half a -> scall sha (S (S (S (S (S (S k)))))) g_256p [] [u32s 8] (u32s 8) [uarr_ a] = Ok ([], uarr_ (hashw [a ++ dum1 256])).
Proof.
  intros k a Ha. eapply call_here; [apply sha_intro; [reflexivity|reflexivity|reflexivity]|reflexivity|reflexivity| |].
  - eapply exs_cons; [eapply ex_def; apply lits_ev|apply exs_nil].
  - eapply ev_call; [apply evs_nil| |reflexivity|exact (sha512_call k a (dum1 256) Ha (proj2 (dum_half 256 ltac:(unfold is32; lia))))]. unfold h8, iv. run2.
Qed.
Lemma p512_call : forall k a b, half a -> half b -> scall sha (S (S (S (S (S (S k)))))) g_512p [] [u32s 8; u32s 8] (u32s 8) [uarr_ a; uarr_ b] = Ok ([], uarr_ (hashw [a ++ b; dum1 0 ++ dum 512])).
Proof.
  intros k a b Ha Hb. eapply call_here; [apply sha_intro; [reflexivity|reflexivity|reflexivity]|reflexivity|reflexivity| |].
  - eapply exs_cons; [eapply ex_def; apply lits_ev|]. eapply exs_cons; [eapply ex_def; apply lits_ev|apply exs_nil].
  - eapply ev_call; [apply evs_nil| |reflexivity|exact (sha1024_call k a b (dum1 0) (dum 512) Ha Hb (proj2 (dum_half 0 ltac:(unfold is32; lia))) (proj1 (dum_half 512 ltac:(unfold is32; lia))))]. unfold h8, iv. run2.
Qed.
Lemma p1024_call : forall k a b c d, half a -> half b -> half c -> half d -> scall sha (S (S (S (S (S (S k)))))) g_1024p [] [u32s 8; u32s 8; u32s 8; u32s 8] (u32s 8) [uarr_ a; uarr_ b; uarr_ c; uarr_ d] = Ok ([], uarr_ (hashw [a ++ b; c ++ d; dum1 0 ++ dum 1024])).
Proof.
  intros k a b c d Ha Hb Hc Hd. eapply call_here; [apply sha_intro; [reflexivity|reflexivity|reflexivity]|reflexivity|reflexivity| |].
  - eapply exs_cons; [eapply ex_def; apply lits_ev|]. eapply exs_cons; [eapply ex_def; apply lits_ev|apply exs_nil].
  - eapply ev_call; [apply evs_nil| |reflexivity|exact (sha1536_call k a b c d (dum1 0) (dum 1024) Ha Hb Hc Hd (proj2 (dum_half 0 ltac:(unfold is32; lia))) (proj1 (dum_half 1024 ltac:(unfold is32; lia))))]. unfold h8, iv. run2.
Qed.
End Hash.
