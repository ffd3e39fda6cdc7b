(** One round of the compression function and the hash of a list of blocks. *)
From Coq Require Import String Ascii.
From Coq Require Import ZArith NArith List Bool Lia.
From Verif Require Import Bytes Sha256.
From Verif Require Import PField Concrete Interp Bits Flat Zir Codegen Str Abi Typed Writes Src SrcTy Std StdRun StdSpec Sha ShaRun.
Import ListNotations.
Open Scope list_scope.
Open Scope Z_scope.

Section Steps.
Context {PF : PrimeField}.
Variable call : caller.
Lemma step : forall rho s ss r1 (Q : renv -> Prop), ex call rho s r1 -> (exists r, exs call r1 ss r /\ Q r) -> exists r, exs call rho (s :: ss) r /\ Q r.
Proof. intros rho s ss r1 Q H [r [E H2]]. exists r. split; [exact (exs_cons call _ _ _ _ _ H E)|exact H2]. Qed.
Lemma step_for : forall rho s ss (P Q : renv -> Prop), (exists r1, ex call rho s r1 /\ P r1) -> (forall r1, P r1 -> exists r, exs call r1 ss r /\ Q r) -> exists r, exs call rho (s :: ss) r /\ Q r.
Proof. intros rho s ss P Q [r1 [E H]] H2. exact (step _ _ _ _ _ E (H2 r1 H)). Qed.
Lemma step_end : forall rho (Q : renv -> Prop), Q rho -> exists r, exs call rho [] r /\ Q r.
Proof. intros rho Q H. exists rho. split; [apply exs_nil|exact H]. Qed.
End Steps.
Section Call2.
Context {PF : PrimeField}.
Lemma call_here' : forall funs k f gs ts t gens params body ret vs v, funs f gs ts t = Some (Here gens params body ret) -> length params = length vs -> length gens = length gs ->
  (exists r, exs (scall funs k) (rbind (rbind (fun _ => None) (map (fun q => src (fst q)) params) vs) (map src gens) (map (VUint W32) gs)) body r /\ ev (scall funs k) r ret v) ->
  scall funs (S k) f gs ts t vs = Ok ([], v).
Proof. intros funs k f gs ts t gens params body ret vs v H1 H2 H3 [r [H4 H5]]. exact (call_here funs k f gs ts t gens params body ret vs r v H1 H2 H3 H4 H5). Qed.
End Call2.
Section Round.
Context {PF : PrimeField}.
(** the variables x, x + 1, ... hold the given words *)
Fixpoint holds (r : renv) (x : nat) (l : list Z) : Prop := match l with [] => True | z :: l => r (src x) = Some (VUint W32 z) /\ holds r (S x) l end.
Definition part (ws : list Z) (i : nat) : list Z := rev (expand (i - 16) (rev ws)) ++ repeat 0 (64 - i).
Lemma part_nth : forall ws i d, length ws = 16%nat -> (16 <= i)%nat -> (1 <= d <= 16)%nat -> nth_error (part ws i) (i - d) = Some (nth (d - 1) (expand (i - 16) (rev ws)) 0).
Proof.
  intros ws i d L Hi Hd. unfold part. assert (Le : length (expand (i - 16) (rev ws)) = i) by (rewrite expand_length, rev_length, L; lia). rewrite nth_error_app1 by (rewrite rev_length, Le; lia).
  rewrite (nth_error_nth' _ 0) by (rewrite rev_length, Le; lia). rewrite rev_nth by (rewrite Le; lia). rewrite Le. do 2 f_equal. lia.
Qed.
Lemma part_S : forall ws i, length ws = 16%nat -> (16 <= i < 64)%nat -> exists b, part ws i = rev (expand (i - 16) (rev ws)) ++ 0 :: b /\ part ws (S i) = rev (expand (i - 16) (rev ws)) ++ next (expand (i - 16) (rev ws)) :: b.
Proof.
  intros ws i L Hi. exists (repeat 0 (63 - i)). unfold part. replace (64 - i)%nat with (S (63 - i)) by lia. split; [reflexivity|]. replace (S i - 16)%nat with (S (i - 16)) by lia. rewrite expand_S. cbn [rev]. rewrite <- app_assoc. cbn [app]. do 3 f_equal. 
Qed.
Lemma nth_32 : forall l n, Forall is32 l -> (n < length l)%nat -> is32 (nth n l 0).
Proof. intros l n H L. rewrite Forall_forall in H. apply H, nth_In, L. Qed.
Lemma schedule_part : forall ws, part ws 64 = schedule ws.
Proof. intros ws. unfold part, schedule. cbn [Nat.sub repeat]. apply app_nil_r. Qed.
Lemma schedule_length : forall ws, length ws = 16%nat -> length (schedule ws) = 64%nat.
Proof. intros ws L. unfold schedule. rewrite rev_length, expand_length, rev_length, L. reflexivity. Qed.
Definition state (a b c d e f g h : Z) : list Z := [a; b; c; d; e; f; g; h].
Lemma extend_loop : forall k rho ws cs, length ws = 16%nat -> Forall is32 ws -> holds rho 2 cs -> (length cs <= 8)%nat -> rho (src 10) = Some (uarr_ (ws ++ repeat 0 48)) ->
  exists r, ex (scall sha (S (S k))) rho (SFor (src 11) (ul 16) (ul 64) [SSet (src 10) (u32s 64) [SASel (uv 11)] (SCall [u32s 64; U32] U32 g_extend [] [iv (u32s 64) 10; uv 11])]) r /\ holds r 2 cs /\ r (src 10) = Some (uarr_ (schedule ws)).
Proof.
  intros k rho ws cs L W Hc Lc H10.
  destruct (ex_for (scall sha (S (S k))) (fun i r => holds r 2 cs /\ r (src 10) = Some (uarr_ (part ws (Z.to_nat i)))) rho (src 11) (ul 16) (ul 64) [SSet (src 10) (u32s 64) [SASel (uv 11)] (SCall [u32s 64; U32] U32 g_extend [] [iv (u32s 64) 10; uv 11])] 16 64 W32 W32) as [r [E [P1 P2]]].
  - unfold ul. run2.
  - unfold ul. run2.
  - lia.
  - split; [exact Hc|]. rewrite H10. unfold part. change (Z.to_nat 16) with 16%nat. cbn [Nat.sub expand]. rewrite rev_involutive. reflexivity.
  - intros i r Hi [P1 P2]. set (n := Z.to_nat i) in *. assert (Hn : (16 <= n < 64)%nat) by (unfold n; lia). destruct (part_S ws n L Hn) as [b [B1 B2]].
    assert (Le : length (expand (n - 16) (rev ws)) = n) by (rewrite expand_length, rev_length, L; lia). assert (We : Forall is32 (expand (n - 16) (rev ws))) by (apply expand_32, Forall_rev, W).
    exists (rupd (rupd r (src 11) (VUint W32 i)) (src 10) (uarr_ (part ws (S n)))). split; [|split].
    + eapply exs_cons; [|apply exs_nil]. eapply ex_set with (v := VUint W32 (next (expand (n - 16) (rev ws)))) (k := i) (w := W32) (l := map (VUint W32) (part ws n)).
      * eapply ev_call; [apply evs_nil|unfold uv, iv; apply evs_cons; [eapply ev_id; rewrite rupd_src by discriminate; exact P2|apply evs_cons; [eapply ev_id; look|apply evs_nil]]|reflexivity|].
        pose proof (part_nth ws n 16 L ltac:(lia) ltac:(lia)) as N16. pose proof (part_nth ws n 15 L ltac:(lia) ltac:(lia)) as N15. pose proof (part_nth ws n 7 L ltac:(lia) ltac:(lia)) as N7. pose proof (part_nth ws n 2 L ltac:(lia) ltac:(lia)) as N2.
        replace (n - 16)%nat with (Z.to_nat (i - 16)) in N16 at 1 by (unfold n; lia). replace (n - 15)%nat with (Z.to_nat (i - 15)) in N15 at 1 by (unfold n; lia). replace (n - 7)%nat with (Z.to_nat (i - 7)) in N7 at 1 by (unfold n; lia). replace (n - 2)%nat with (Z.to_nat (i - 2)) in N2 at 1 by (unfold n; lia).
        unfold next. exact (extend_call k (part ws n) i _ _ _ _ ltac:(lia) N16 N15 N7 N2 (nth_32 _ 14 We ltac:(lia)) (nth_32 _ 1 We ltac:(lia))).
      * unfold uv, iv. eapply ev_id. look.
      * rewrite rupd_src by discriminate. exact P2.
      * unfold uarr_. rewrite B1, B2, !map_app. cbn [map]. apply put_at; [lia|]. rewrite map_length, rev_length, Le. reflexivity.
    + clear - P1 Lc. assert (G : forall cs x, holds r x cs -> (x + length cs <= 10)%nat -> holds (rupd (rupd r (src 11) (VUint W32 i)) (src 10) (uarr_ (part ws (S n)))) x cs).
      { induction cs0 as [|z cs0 IH]; intros x H Hx; [exact Logic.I|]. cbn [holds length] in *. destruct H as [H1 H2]. split; [rewrite !rupd_src by lia; exact H1|apply IH; [exact H2|lia]]. }
      apply G; [exact P1|lia].
    + rewrite rupd_same. replace (Z.to_nat (i + 1)) with (S n) by (unfold n; lia). reflexivity.
  - exists r. split; [exact E|]. split; [exact P1|]. rewrite P2, <- schedule_part. reflexivity.
Qed.
Definition kbody : list sstmt :=
  [SDef (src 20) U32 (SCall [U32; U32; U32; U32; U32; U32] U32 g_temp1 [] [uv 16; uv 17; uv 18; uv 19; sel_ U32 (lits K_) (uv 11); sel_ U32 (iv (u32s 64) 10) (uv 11)]);
   SDef (src 21) U32 (SCall [U32; U32; U32] U32 g_temp2 [] [uv 12; uv 13; uv 14]);
   SDef (src 19) U32 (uv 18); SDef (src 18) U32 (uv 17); SDef (src 17) U32 (uv 16); SDef (src 16) U32 (uadd_ (uv 15) (uv 20));
   SDef (src 15) U32 (uv 14); SDef (src 14) U32 (uv 13); SDef (src 13) U32 (uv 12); SDef (src 12) U32 (uadd_ (uv 20) (uv 21))].
Lemma round_eq : forall a b c d e f g h q w, round [a; b; c; d; e; f; g; h] (q, w) = [add32 (t1 e f g h q w) (t2 a b c); a; b; c; add32 d (t1 e f g h q w); e; f; g].
Proof. reflexivity. Qed.
Lemma holds_inv8 : forall r x l, length l = 8%nat -> holds r x l -> exists a b c d e f g h, l = [a; b; c; d; e; f; g; h] /\
  r (src x) = Some (VUint W32 a) /\ r (src (1 + x)) = Some (VUint W32 b) /\ r (src (2 + x)) = Some (VUint W32 c) /\ r (src (3 + x)) = Some (VUint W32 d) /\
  r (src (4 + x)) = Some (VUint W32 e) /\ r (src (5 + x)) = Some (VUint W32 f) /\ r (src (6 + x)) = Some (VUint W32 g) /\ r (src (7 + x)) = Some (VUint W32 h).
Proof. intros r x l L H. do 8 (destruct l as [|? l]; [discriminate L|]). destruct l; [|discriminate L]. cbn [holds] in H. do 8 eexists. split; [reflexivity|]. intuition. Qed.
Lemma round_32 : forall st q, length st = 8%nat -> Forall is32 st -> length (round st q) = 8%nat /\ Forall is32 (round st q).
Proof.
  intros st [q w] L H. do 8 (destruct st as [|? st]; [discriminate L|]). destruct st; [|discriminate L]. rewrite round_eq. split; [reflexivity|].
  repeat match goal with H : Forall is32 (_ :: _) |- _ => inversion H; clear H; subst end. repeat (constructor; [first [assumption|apply is32_add]|]). constructor.
Qed.
Lemma rounds_32 : forall l st, length st = 8%nat -> Forall is32 st -> length (fold_left round l st) = 8%nat /\ Forall is32 (fold_left round l st).
Proof. induction l as [|q l IH]; intros st L H; [auto|]. cbn [fold_left]. destruct (round_32 st q L H) as [A B]. exact (IH _ A B). Qed.
Lemma nth_combine : forall (l ws : list Z) n q w, nth_error (combine l ws) n = Some (q, w) -> nth_error l n = Some q /\ nth_error ws n = Some w.
Proof. induction l as [|x l IH]; intros [|y ws] [|n] q w H; try discriminate H; [injection H as -> ->; auto|exact (IH ws n q w H)]. Qed.
Lemma rounds_loop : forall k rho ws cs st, length ws = 64%nat -> length cs = 8%nat -> length st = 8%nat -> Forall is32 st -> holds rho 2 cs -> rho (src 10) = Some (uarr_ ws) -> holds rho 12 st ->
  exists r, ex (scall sha (S (S k))) rho (SFor (src 11) (ul 0) (ul 64) kbody) r /\ holds r 2 cs /\ holds r 12 (fold_left round (combine K_ ws) st).
Proof.
  intros k rho ws cs st Lw Lc Ls Ws H2 H10 H12.
  assert (Lk : length (combine K_ ws) = 64%nat) by (rewrite combine_length, Lw; reflexivity).
  destruct (ex_for (scall sha (S (S k))) (fun i r => holds r 2 cs /\ r (src 10) = Some (uarr_ ws) /\ holds r 12 (fold_left round (firstn (Z.to_nat i) (combine K_ ws)) st)) rho (src 11) (ul 0) (ul 64) kbody 0 64 W32 W32) as [r [E [P1 [P2 P3]]]].
  - unfold ul. run2.
  - unfold ul. run2.
  - lia.
  - split; [exact H2|]. split; [exact H10|exact H12].
  - intros i r Hi [P1 [P2 P3]]. set (n := Z.to_nat i) in *. assert (Hn : (n < 64)%nat) by (unfold n; lia). replace (Z.to_nat (i + 1)) with (S n) by (unfold n; lia).
    destruct (nth_error (combine K_ ws) n) as [[q w]|] eqn:En; [|apply nth_error_None in En; lia].
    assert (Eq : nth_error K_ n = Some q /\ nth_error ws n = Some w).
    { exact (nth_combine K_ ws n q w En). }
    destruct Eq as [Eq Ew]. rewrite (firstn_S _ _ _ _ En), fold_left_app. cbn [fold_left]. destruct (rounds_32 (firstn n (combine K_ ws)) st Ls Ws) as [La Wa].
    destruct (holds_inv8 _ _ _ La P3) as (a & b & c & d & e & f & g & h & Es & Q1 & Q2 & Q3 & Q4 & Q5 & Q6 & Q7 & Q8). rewrite Es in *. cbn [Nat.add] in *.
    assert (Ia : is32 a) by (inversion Wa; assumption). assert (Ie : is32 e) by (do 4 (inversion Wa as [|? ? ? Wb]; subst; clear Wa; rename Wb into Wa); inversion Wa; assumption).
    eexists. split.
    + unfold kbody.
      eapply exs_cons. { eapply ex_def. eapply ev_call; [apply evs_nil| |reflexivity|exact (temp1_call k e f g h q w Ie)]. cbn [map]. unfold uv, iv, sel_.
        apply evs_cons; [eapply ev_id; look|]. apply evs_cons; [eapply ev_id; look|]. apply evs_cons; [eapply ev_id; look|]. apply evs_cons; [eapply ev_id; look|].
        apply evs_cons; [eapply (ev_sel _ _ _ _ _ _ W32 i); [apply lits_ev|eapply ev_id; look|lia|rewrite nth_error_map; fold n; rewrite Eq; reflexivity]|].
        apply evs_cons; [eapply (ev_sel _ _ _ _ _ (map (VUint W32) ws) W32 i); [eapply ev_id; look|eapply ev_id; look|lia|rewrite nth_error_map; fold n; rewrite Ew; reflexivity]|]. apply evs_nil. }
      eapply exs_cons. { eapply ex_def. eapply ev_call; [apply evs_nil| |reflexivity|exact (temp2_call k a b c Ia)]. cbn [map]. unfold uv, iv. run2. }
      do 7 (eapply exs_cons; [eapply ex_def; unfold uadd_, uv, iv; run2|]). eapply exs_cons; [eapply ex_def; unfold uadd_, uv, iv; run2|]. apply exs_nil.
    + split; [|split].
      * clear - P1 Lc. assert (G : forall v21 v20 v19 v18 v17 v16 v15 v14 v13 v12 v11 l x, holds r x l -> (x + length l <= 10)%nat ->
          holds (rupd (rupd (rupd (rupd (rupd (rupd (rupd (rupd (rupd (rupd (rupd r (src 11) v11) (src 20) v20) (src 21) v21) (src 19) v19) (src 18) v18) (src 17) v17) (src 16) v16) (src 15) v15) (src 14) v14) (src 13) v13) (src 12) v12) x l).
        { intros v21 v20 v19 v18 v17 v16 v15 v14 v13 v12 v11. induction l as [|z l IH]; intros x H Hx; [exact Logic.I|]. cbn [holds length] in *. destruct H as [H1 H2]. split; [rewrite !rupd_src by lia; exact H1|apply IH; [exact H2|lia]]. }
        apply G; [exact P1|lia].
      * look.
      * rewrite round_eq. cbn [holds]. repeat split; look.
  - exists r. split; [exact E|]. split; [exact P1|]. rewrite firstn_all2 in P3 by (rewrite Lk; change (Z.to_nat 64) with 64%nat; lia). exact P3.
Qed.
Lemma round_call : forall k ws h, length ws = 16%nat -> length h = 8%nat -> Forall is32 ws -> Forall is32 h ->
  scall sha (S (S (S k))) g_round [] [u32s 16; u32s 8] (u32s 8) [uarr_ ws; uarr_ h] = Ok ([], uarr_ (compressw h ws)).
Proof.
  intros k ws h Lw Lh Ww Wh. eapply call_here'; [apply sha_intro; [reflexivity|reflexivity|reflexivity]|reflexivity|reflexivity|]. pose proof Lh as Lh'. do 8 (destruct h as [|? h]; [discriminate Lh|]). destruct h; [|discriminate Lh].
  cbn [map fst rbind]. unfold cur_, sel_, ul, uv, iv, len. cbn [Nat.add Z.of_nat Pos.of_succ_nat Pos.succ].
  do 8 (eapply step; [eapply ex_def; eapply ev_sel; [eapply ev_id; look|eapply ev_op; [apply evs_nil|reflexivity]|lia|reflexivity]|]).
  eapply step. { eapply ex_def. eapply ev_op; [apply evs_cons; [eapply ev_id; look|apply evs_cons; [eapply ev_par; [eapply ev_op; [apply evs_nil|reflexivity]|apply evs_cons; [eapply ev_op; [apply evs_nil|reflexivity]|apply evs_nil]|reflexivity|reflexivity|reflexivity]|apply evs_nil]]|].
    unfold uarr_ at 1. cbn [sem_op spread option_map of_opt]. rewrite app_nil_r. change (repeat (VUint W32 0) 48) with (map (@VUint PF W32) (repeat 0 48)). rewrite <- map_app. reflexivity. }
  eapply step_for. { eapply (extend_loop k _ ws [z; z0; z1; z2; z3; z4; z5; z6] Lw Ww); [cbn [holds]; repeat split; look|cbn [length]; lia|look]. }
  intros r [R1 R2]. cbn [holds] in R1. destruct R1 as (A1 & A2 & A3 & A4 & A5 & A6 & A7 & A8 & _).
  do 8 (eapply step; [eapply ex_def; eapply ev_id; look|]).
  eapply step_for. { eapply (rounds_loop k _ (schedule ws) [z; z0; z1; z2; z3; z4; z5; z6] [z; z0; z1; z2; z3; z4; z5; z6] (schedule_length ws Lw) eq_refl eq_refl Wh); [cbn [holds]; repeat split; look|look|cbn [holds]; repeat split; look]. }
  intros r2 [R3 R4]. cbn [holds] in R3. destruct R3 as (B1 & B2 & B3 & B4 & B5 & B6 & B7 & B8 & _). unfold compressw. change sha_k with K_. destruct (rounds_32 (combine K_ (schedule ws)) _ Lh' Wh) as [La _].
  destruct (holds_inv8 _ _ _ La R4) as (a & b & c & d & e & f & g & h' & Es & Q1 & Q2 & Q3 & Q4 & Q5 & Q6 & Q7 & Q8). rewrite Es. cbn [Nat.add] in *. clear R4 La Es A1 A2 A3 A4 A5 A6 A7 A8 R2.
  unfold uadd_. do 8 (eapply step; [eapply ex_def; unfold uv, iv; run2|]).
  apply step_end. eapply ev_op; [run2|]. reflexivity.
Qed.
End Round.
