(** Proofs about Writes.v: the new value of a variable after an assignment to a part of it at a computed index, and the range checks. *)
From Coq Require Import String Ascii.
From Coq Require Import ZArith NArith List Bool Lia.
From Verif Require Import PField Interp Bits Zir CgProg UintOpt Str Abi Typed Flatten FlattenOps FlattenSim FlattenRun Writes Redefine WritesVal WritesExp.
Import ListNotations.
Open Scope Z_scope.

Section WritesChoose.
Context {PF : PrimeField}.

(** ** Evaluation in the environment of the conditions *)
Definition self_e (S : tctx) (e : texp) (t : cty) : Prop := plain e = true -> forall rho v, okenv S rho -> tev2 rho rho e = Some v -> teval rho e = Ok ([], v).
Definition self_es (S : tctx) (es : list texp) (ts : list cty) : Prop := forallb plain es = true -> forall rho vs, okenv S rho -> tevs2 rho rho es = Some vs -> tevals rho es = Ok ([], vs).
Theorem self_ok : (forall S e t, tty S e t -> self_e S e t) /\ (forall S es ts, ttys S es ts -> self_es S es ts) /\ (forall S s S1, tsty S s S1 -> True) /\ (forall S ss S1, tstys S ss S1 -> True).
Proof.
  apply typed_ind; try (intros; exact I).
  - intros S t x E _ rho v Ok1 Ev. cbn [tev2] in Ev. cbn [teval]. rewrite Ev. reflexivity.
  - intros S op args ts t _ IH Y P rho v Ok1 Ev. rewrite u_tev2_op in Ev. destruct (tevs2 rho rho args) as [vs|] eqn:E; [|discriminate Ev]. rewrite u_teval_op, (IH P rho vs Ok1 E). cbn [obnd fst snd]. destruct (sem_op op (map is_tlit args) vs) as [w| |]; try discriminate Ev. injection Ev as <-. reflexivity.
  - intros S c x y t Yc IHc _ IHx _ IHy P rho v Ok1 Ev. cbn [plain] in P. apply andb_prop in P as [P P3]. apply andb_prop in P as [P1 P2]. cbn [tev2] in Ev.
    destruct (if simple_cond c then _ else _) as [vc|] eqn:Evc; [|discriminate Ev]. assert (Ec : teval rho c = Ok ([], vc)).
    { destruct (simple_cond c); [exact (IHc P1 _ _ Ok1 Evc)|]. destruct (teval rho c) as [[lg u]| |] eqn:E; try discriminate Evc. injection Evc as <-. destruct (proj1 ev2_ok S c CBool Yc P1 _ _ _ Ok1 E) as [-> _]. reflexivity. }
    destruct vc as [| |k| | |]; try discriminate Ev. destruct (tev2 rho rho x) as [wx|] eqn:Wx; [|discriminate Ev]. destruct (tev2 rho rho y) as [wy|] eqn:Wy; [|discriminate Ev]. injection Ev as <-. cbn [teval]. rewrite Ec, (IHx P2 _ _ Ok1 Wx), (IHy P3 _ _ Ok1 Wy). reflexivity.
  - intros S S' ss e t _ _ _ _ P. discriminate P.
  - intros S _ rho vs _ E. injection E as <-. reflexivity.
  - intros S e r t ts _ IHe _ IHr P rho vs Ok1 E. cbn [forallb] in P. apply andb_prop in P as [P1 P2]. rewrite u_tevs2 in E. destruct (tev2 rho rho e) as [w|] eqn:W1; [|discriminate E]. destruct (tevs2 rho rho r) as [ws|] eqn:W2; [|discriminate E]. injection E as <-. rewrite u_tevals, (IHe P1 _ _ Ok1 W1). cbn [obnd fst snd]. rewrite (IHr P2 _ _ Ok1 W2). reflexivity.
Qed.

(** ** A plain expression has no statements *)
Lemma plain_flat : (forall S e t, tty S e t -> plain e = true -> tdefs e = [] /\ forall ss zs, tflat e = Some (ss, zs) -> ss = []) /\ (forall S es ts, ttys S es ts -> forallb plain es = true -> tdefss es = [] /\ forall ss zss, tflats es = Some (ss, zss) -> ss = []) /\ (forall S s S1, tsty S s S1 -> True) /\ (forall S ss S1, tstys S ss S1 -> True).
Proof.
  apply typed_ind; try (intros; exact I).
  - intros S t x E _. split; [reflexivity|]. intros ss zs H. injection H as <- _. reflexivity.
  - intros S op args ts t _ IH Y P. destruct (IH P) as [D H0]. split; [exact D|]. intros ss zs H. change (tflat (TOp op args)) with (match tflats args with Some (ss, zss) => match comb op zss with Some zs => Some (ss, zs) | None => None end | None => None end) in H. destruct (tflats args) as [[s0 zss]|]; [|discriminate H]. destruct (comb op zss); [|discriminate H]. injection H as <- _. exact (H0 _ _ eq_refl).
  - intros S c x y t _ IHc _ IHx _ IHy P. cbn [plain] in P. apply andb_prop in P as [P P3]. apply andb_prop in P as [P1 P2]. destruct (IHc P1) as [D1 H1]. destruct (IHx P2) as [D2 H2]. destruct (IHy P3) as [D3 H3]. split; [cbn [tdefs]; rewrite D1, D2, D3; reflexivity|]. intros ss zs H. cbn [tflat] in H. destruct (tflat c) as [[sc zc]|]; [|discriminate H]. destruct (tflat x) as [[sx zx]|]; [|discriminate H]. destruct (tflat y) as [[sy zy]|]; [|discriminate H]. destruct (popE zc); [|discriminate H]. destruct (zconds z zx zy); [|discriminate H]. injection H as <- _.
    rewrite (H1 _ _ eq_refl), (H2 _ _ eq_refl), (H3 _ _ eq_refl). reflexivity.
  - intros S S' ss e t _ _ _ _ P. discriminate P.
  - intros S _. split; [reflexivity|]. intros ss zss H. injection H as <- _. reflexivity.
  - intros S e r t ts _ IHe _ IHr P. cbn [forallb] in P. apply andb_prop in P as [P1 P2]. destruct (IHe P1) as [D1 H1]. destruct (IHr P2) as [D2 H2]. split; [rewrite u_tdefss, D1, D2; reflexivity|]. intros ss zss H. change (tflats (e :: r)) with (match tflat e, tflats r with Some a, Some b => Some (fst a ++ fst b, snd a :: snd b) | _, _ => None end) in H.
    destruct (tflat e) as [[s1 z1]|]; [|discriminate H]. destruct (tflats r) as [[s2 z2]|]; [|discriminate H]. injection H as <- _. rewrite (H1 _ _ eq_refl), (H2 _ _ eq_refl). reflexivity.
Qed.

(** ** Lists *)
Lemma ov_all : forall rc rho es vs, Forall2 (fun e v => tev2 rc rho e = Some v) es vs -> tevs2 rc rho es = Some vs.
Proof. intros rc rho es vs H. induction H as [|e v es vs E H IH]; [reflexivity|]. rewrite u_tevs2, E, IH. reflexivity. Qed.
Lemma enum_from : forall A (l a : list A), Forall2 (fun k v => nth_error (a ++ l) k = Some v) (seq (length a) (length l)) l.
Proof.
  intros A. induction l as [|x l IH]; intros a; [constructor|]. cbn [length seq]. constructor; [rewrite nth_error_app2, Nat.sub_diag by lia; reflexivity|]. specialize (IH (a ++ [x])). rewrite app_length in IH. cbn [length] in IH. rewrite Nat.add_1_r in IH. rewrite <- app_assoc in IH. exact IH.
Qed.
Lemma enum : forall A (l : list A), Forall2 (fun k v => nth_error l k = Some v) (seq 0 (length l)) l.
Proof. intros A l. exact (enum_from A l []). Qed.
Lemma f2_map_left : forall A B C (f : A -> B) (R : B -> C -> Prop) l m, Forall2 (fun a c => R (f a) c) l m -> Forall2 R (map f l) m.
Proof. intros A B C f R l m H. induction H; constructor; assumption. Qed.
Lemma f2_impl : forall A B (P Q : A -> B -> Prop) l m, (forall a b, P a b -> Q a b) -> Forall2 P l m -> Forall2 Q l m.
Proof. intros A B P Q l m H F. induction F; constructor; auto. Qed.
Lemma nth_mid : forall A (a b : list A) x y k, k <> length a -> nth_error (a ++ x :: b) k = nth_error (a ++ y :: b) k.
Proof. intros A a b x y k H. destruct (Nat.lt_ge_cases k (length a)) as [L|L]; [rewrite !nth_error_app1 by lia; reflexivity|]. rewrite !nth_error_app2 by lia. destruct (k - length a)%nat eqn:E; [lia|reflexivity]. Qed.
Lemma member_in : forall k v (l : list (string * value_)), NoDup (map fst l) -> In (k, v) l -> member k l = Some v.
Proof.
  intros k v. induction l as [|[k' v'] l IH]; intros N H; [destruct H|]. cbn [map fst] in N. inversion N as [|? ? N1 N2]; subst. cbn [member]. destruct (String.eqb_spec k' k) as [->|D].
  - destruct H as [H|H]; [injection H as ->; reflexivity|]. destruct N1. apply (in_map fst) in H. exact H.
  - destruct H as [H|H]; [injection H as -> ->; contradiction D; reflexivity|]. exact (IH N2 H).
Qed.
Lemma first_split : forall k (t : cty) (ms : list (string * cty)), NoDup (map fst ms) -> In (k, t) ms -> exists a b, ms = a ++ (k, t) :: b /\ ~ In k (map fst a).
Proof.
  intros k t ms N H. apply in_split in H as [a [b ->]]. exists a, b. split; [reflexivity|]. rewrite map_app in N. cbn [map fst] in N. apply NoDup_remove_2 in N. intros I. apply N. apply in_or_app. left. exact I.
Qed.

(** ** Typing of the new value *)
Lemma lit_ty : forall (S : tctx) k, Z.of_nat k < 2 ^ 32 -> tty S (ulit32 k) (CUint W32).
Proof. intros S k H. eapply YOp; [apply YNil|]. apply YUVal. change (bits_of W32) with 32. lia. Qed.
Lemma ttys_map : forall A (S : tctx) (f : A -> texp) (g : A -> cty) l, (forall a, In a l -> tty S (f a) (g a)) -> ttys S (map f l) (map g l).
Proof. intros A S f g. induction l as [|a l IH]; intros H; [apply YNil|]. cbn [map]. apply YCons; [apply H; left; reflexivity|apply IH; intros b B; apply H; right; exact B]. Qed.
Lemma arr_repeat : forall ty n, arr_ty ty (repeat false n) (repeat ty n) n.
Proof. intros ty. induction n as [|n IH]; [apply ATnil|]. cbn [repeat]. apply ATone. exact IH. Qed.
Lemma map_const : forall A B (c : B) (l : list A), map (fun _ => c) l = repeat c (length l).
Proof. intros A B c. induction l as [|a l IH]; [reflexivity|]. cbn. rewrite IH. reflexivity. Qed.
Lemma combine_snd : forall A (l : list A) s, map snd (combine (seq s (length l)) l) = l.
Proof. intros A. induction l as [|x l IH]; intros s; [reflexivity|]. cbn [length seq combine map snd]. rewrite IH. reflexivity. Qed.
Lemma combine_in : forall A (l : list A) q, In q (combine (seq 0 (length l)) l) -> nth_error l (fst q) = Some (snd q).
Proof. intros A l [k x] H. pose proof (enum A l) as E. set (s := seq 0 (length l)) in *. clearbody s. cbn [fst snd]. revert E. generalize (nth_error l). intros f E. induction E as [|k' x' s l E1 E IH]; [destruct H|]. destruct H as [H|H]; [injection H as -> ->; exact E1|exact (IH H)]. Qed.
Lemma pair_split : forall (ms : list (string * cty)), combine (map fst ms) (map snd ms) = ms.
Proof. induction ms as [|[k t] ms IH]; [reflexivity|]. cbn. rewrite IH. reflexivity. Qed.
Theorem choose_ty : forall (S : tctx) t p te, path_ty S t p te -> forall base e, good_ty t -> tty S base t -> tty S e te -> tty S (choose_many base t p e) t.
Proof.
  induction 1 as [t|ty n i r t Hn Ti H IH|ms m tm r t sa sb Em N H IH|ts k tk r t E H IH]; intros base e G Tb Te; cbn [choose_many].
  - exact Te.
  - eapply YOp; [|apply YArr; apply arr_repeat]. replace (repeat ty n) with (map (fun _ : nat => ty) (seq 0 n)) by (rewrite map_const, seq_length; reflexivity). apply ttys_map. intros k K. apply in_seq in K. cbn zeta.
    assert (L : tty S (ulit32 k) (CUint W32)) by (apply lit_ty; lia). assert (El : tty S (TOp (OSel ty) [base; ulit32 k]) ty) by (eapply YOp; [apply YCons; [exact Tb|apply YCons; [exact L|apply YNil]]|apply YSel; lia]).
    apply YCond; [eapply YOp; [apply YCons; [exact L|apply YCons; [exact Ti|apply YNil]]|apply YEq]|apply IH; assumption|exact El].
  - apply good_struct in G as [Nd Gm]. rewrite <- (pair_split ms) at 3. eapply YOp; [|apply YStr; rewrite !map_length; reflexivity]. apply ttys_map. intros [k tk] K. cbn [fst snd]. cbn zeta.
    assert (El : tty S (TOp (OMem ms k) [base]) tk) by (eapply YOp; [apply YCons; [exact Tb|apply YNil]|apply YMem; apply first_split; assumption]).
    destruct (String.eqb_spec k m) as [->|D]; [|exact El]. assert (Ek : tk = tm).
    { assert (K2 : In (m, tm) ms) by (rewrite Em; apply in_or_app; right; left; reflexivity). apply (in_split) in K as [x [y Ek]]. rewrite Ek in K2, Nd. rewrite map_app in Nd. cbn [map fst] in Nd. apply NoDup_remove_2 in Nd. rewrite <- map_app in Nd. apply in_app_or in K2 as [I|[I|I]]; [|congruence|]; contradiction Nd; apply (in_map fst) with (x := (m, tm)); apply in_or_app; auto. }
    subst tk. apply IH; [|exact El|exact Te]. rewrite Forall_forall in Gm. exact (Gm (m, tm) K).
  - pose proof G as G'. apply good_tuple in G'. eapply YOp; [|apply YTup]. assert (Q : forall X, ttys S X (map snd (combine (seq 0 (length ts)) ts)) -> ttys S X ts) by (rewrite combine_snd; auto). apply Q. apply ttys_map. intros [j tj] K. apply combine_in in K. cbn [fst snd] in *. cbn zeta.
    assert (El : tty S (TOp (OElt ts j) [base]) tj) by (eapply YOp; [apply YCons; [exact Tb|apply YNil]|apply YElt; exact K]). destruct (Nat.eqb_spec j k) as [->|D]; [|exact El]. rewrite E in K. injection K as <-. apply IH; [|exact El|exact Te]. rewrite Forall_forall in G'. exact (G' tk (nth_error_In _ _ E)).
Qed.
Lemma choose_plain : forall p base t e, plain base = true -> plain e = true -> plain_path p = true -> plain (choose_many base t p e) = true.
Proof.
  induction p as [|[i|m|k] p IH]; intros base t e Pb Pe Pp; cbn [choose_many]; [exact Pe| | |]; cbn [plain_path forallb] in Pp; apply andb_prop in Pp as [P1 P2]; destruct t; try exact Pb; cbn [plain]; apply plain_ttys; apply Forall_forall; intros x X; apply in_map_iff in X as [q [<- _]]; cbn zeta.
  - cbn [plain forallb ulit32]. rewrite P1, Pb. cbn [andb]. rewrite andb_true_r. apply IH; [cbn; rewrite Pb; reflexivity|exact Pe|exact P2].
  - destruct (fst q =? m)%string; [apply IH; [cbn; rewrite Pb; reflexivity|exact Pe|exact P2]|cbn; rewrite Pb; reflexivity].
  - destruct (fst q =? k)%nat; [apply IH; [cbn; rewrite Pb; reflexivity|exact Pe|exact P2]|cbn; rewrite Pb; reflexivity].
Qed.

(** ** The new value *)
Theorem choose_val : forall (S : tctx) t p te, path_ty S t p te -> forall rho rho3 base e lg ps u w, good_ty t -> plain_path p = true -> okenv S rho -> steps rho p = Ok (lg, ps) -> inb t ps ->
  tev2 rho rho3 base = Some u -> has_type u t -> tev2 rho rho3 e = Some w -> has_type w te -> exists u', put ps w u = Some u' /\ tev2 rho rho3 (choose_many base t p e) = Some u'.
Proof.
  induction 1 as [t|ty n i r t Hn Ti H IH|ms m tm r t sa sb Em N H IH|ts k tk r t E H IH]; intros rho rho3 base e lg ps u w G Pp Ok1 St Ib Eb Tu Ew Tw; cbn [steps] in St.
  - injection St as <- <-. exists w. split; [reflexivity|exact Ew].
  - cbn [plain_path forallb] in Pp. apply andb_prop in Pp as [P1 P2]. apply ok_inv in St as [[la va] [Ei St]]. apply ok_inv in St as [[lb pb] [Es St]]. cbn [fst snd] in St. destruct (proj1 ev2_ok _ _ _ Ti P1 _ _ _ Ok1 Ei) as [_ [Tv _]]. apply type_uint in Tv as [z [-> _]]. injection St as <- <-. cbn [inb] in Ib. destruct Ib as [B1 B2].
    pose proof (path_steps _ _ _ _ H _ _ _ Es) as Sty. apply type_arr in Tu as [l [-> [L Tl]]].
    assert (Put : forall x, has_type x ty -> exists y, put pb w x = Some y) by (intros x Tx; destruct (put_flat _ _ _ Sty x Tx B2) as [p1 [p2 [p3 [_ [_ [_ P]]]]]]; destruct (P w Tw) as [y [P' _]]; exists y; exact P').
    assert (Ln : (Z.to_nat z < length l)%nat) by lia. destruct (nth_error l (Z.to_nat z)) as [x|] eqn:En; [|apply nth_error_None in En; lia]. apply nth_error_split in En as [xa [xb [El La]]]. assert (Tx : has_type x ty) by (rewrite Forall_forall in Tl; apply Tl; rewrite El; apply in_or_app; right; left; reflexivity).
    destruct (Put x Tx) as [y Py]. exists (VArray (xa ++ y :: xb)). cbn [put]. replace (0 <=? z) with true by (symmetry; apply Z.leb_le; lia). split; [rewrite <- La, El, put_nth_def, Py; reflexivity|].
    cbn [choose_many]. rewrite u_tev2_op.
    assert (Ev : tevs2 rho rho3 (map (fun k => TCond (TOp OEq [ulit32 k; i]) (choose_many (TOp (OSel ty) [base; ulit32 k]) ty r e) (TOp (OSel ty) [base; ulit32 k])) (seq 0 n)) = Some (xa ++ y :: xb)).
    { apply ov_all. apply f2_map_left. assert (Ls : n = length (xa ++ y :: xb)) by (rewrite <- L, El, !app_length; reflexivity). rewrite Ls. eapply f2_impl; [|apply enum]. cbn beta. intros k v K.
      assert (Kn : (k < length l)%nat) by (rewrite L, Ls; apply nth_error_Some; congruence). destruct (nth_error l k) as [o|] eqn:Eo; [|apply nth_error_None in Eo; lia]. assert (To : has_type o ty) by (rewrite Forall_forall in Tl; apply Tl; exact (nth_error_In _ _ Eo)).
      assert (Se : tev2 rho rho3 (TOp (OSel ty) [base; ulit32 k]) = Some o) by (rewrite u_tev2_op, !u_tevs2, Eb; cbn [tevs2 ov_list ulit32 tev2 sem_op]; replace (0 <=? Z.of_nat k) with true by (symmetry; apply Z.leb_le; lia); rewrite Nat2Z.id, Eo; reflexivity).
      destruct (IH rho rho3 (TOp (OSel ty) [base; ulit32 k]) e lb pb o w G P2 Ok1 Es B2 Se To Ew Tw) as [o' [Po Eo']]. cbn [tev2 simple_cond]. change (tev2 rho rho3 (TOp (OSel ty) [base; ulit32 k])) with (tev2 rho rho3 (TOp (OSel ty) [base; ulit32 k])). cbn [tev2] in Se. rewrite Se, Eo'.
      rewrite u_teval_op, !u_tevals, Ei. cbn [ulit32 teval teval_list tevals obnd fst snd sem_op value_eqb]. change (bits_of W32 =? bits_of W32) with true. cbn [andb].
      destruct (Z.eqb_spec (Z.of_nat k) z) as [D|D].
      - assert (Ek : k = length xa) by lia. subst k. rewrite El, nth_error_app2, Nat.sub_diag in Eo by lia. injection Eo as <-. rewrite nth_error_app2, Nat.sub_diag in K by lia. injection K as <-. congruence.
      - rewrite <- K, <- Eo, El. symmetry. apply nth_mid. lia. }
    cbn zeta in Ev. cbn zeta. rewrite Ev. cbn [sem_op].
    assert (Sp : forall vs : list value_, spread (repeat false (length vs)) vs = Some vs) by (induction vs as [|v vs IHv]; [reflexivity|]; cbn [length repeat spread]; rewrite IHv; reflexivity). replace n with (length (xa ++ y :: xb)) by (rewrite <- L, El, !app_length; reflexivity). rewrite Sp. reflexivity.
  - cbn [plain_path forallb] in Pp. apply ok_inv in St as [[lb pb] [Es St]]. injection St as <- <-. apply good_struct in G as [Nd Gm]. subst ms. cbn [inb] in Ib. rewrite (tmem_at _ _ _ _ N) in Ib. cbn [snd] in Ib. apply type_str in Tu as [l [-> Tl]]. change (Forall2 stype l (sa ++ (m, tm) :: sb)) in Tl. pose proof (stype_keys _ _ Tl) as Kl. pose proof Tl as Tl'. apply Forall2_app_inv_r in Tl' as [la [lb' [T1 [T2 El]]]]. inversion T2 as [|[m' x] ? lc ? [Em' Tx] T3]; subst. cbn [fst snd] in Em', Tx. subst m'.
    assert (Se : forall k v, In (k, v) (la ++ (m, x) :: lc) -> tev2 rho rho3 (TOp (OMem (sa ++ (m, tm) :: sb) k) [base]) = Some v).
    { intros k v K. rewrite u_tev2_op, u_tevs2, Eb. cbn [tevs2 ov_list sem_op]. rewrite (member_in k v) by (try exact K; rewrite Kl; exact Nd). reflexivity. }
    assert (Ix : In (m, x) (la ++ (m, x) :: lc)) by (apply in_or_app; right; left; reflexivity). rewrite Forall_forall in Gm. assert (Gt : good_ty tm) by (apply (Gm (m, tm)); apply in_or_app; right; left; reflexivity).
    destruct (IH rho rho3 _ e lb pb x w Gt Pp Ok1 Es Ib (Se m x Ix) Tx Ew Tw) as [y [Py Ey]]. exists (VStruct (la ++ (m, y) :: lc)). cbn [put]. rewrite put_mem_at by (rewrite (stype_keys _ _ T1); exact N). rewrite Py. split; [reflexivity|]. cbn [choose_many]. rewrite u_tev2_op.
    assert (Ev : tevs2 rho rho3 (map (fun q => if (fst q =? m)%string then choose_many (TOp (OMem (sa ++ (m, tm) :: sb) (fst q)) [base]) (snd q) r e else TOp (OMem (sa ++ (m, tm) :: sb) (fst q)) [base]) (sa ++ (m, tm) :: sb)) = Some (map snd la ++ y :: map snd lc)).
    { apply ov_all. apply f2_map_left. rewrite map_app in Nd. cbn [map fst] in Nd. apply NoDup_remove_2 in Nd.
      assert (Q : forall sl ll, Forall2 stype ll sl -> ~ In m (map fst sl) -> (forall q, In q ll -> In q (la ++ (m, x) :: lc)) -> Forall2 (fun (q : string * cty) v => tev2 rho rho3 (if (fst q =? m)%string then choose_many (TOp (OMem (sa ++ (m, tm) :: sb) (fst q)) [base]) (snd q) r e else TOp (OMem (sa ++ (m, tm) :: sb) (fst q)) [base]) = Some v) sl (map snd ll)).
      { intros sl ll F. induction F as [|[k v] [k' t'] ll sl [Ek _] F IHF]; intros Nm Inc; [constructor|]. cbn [fst snd] in Ek. subst k'. cbn [map fst] in Nm. cbn [map snd]. constructor; [|apply IHF; [intros I; apply Nm; right; exact I|intros q Q; apply Inc; right; exact Q]]. cbn [fst snd]. destruct (String.eqb_spec k m) as [->|D]; [destruct Nm; left; reflexivity|]. apply Se. apply Inc. left. reflexivity. }
      apply Forall2_app; [apply Q; [exact T1|exact N|intros q I; apply in_or_app; left; exact I]|]. constructor; [cbn [fst snd]; rewrite String.eqb_refl; exact Ey|]. apply Q; [exact T3|intros I; apply Nd; apply in_or_app; right; exact I|intros q I; apply in_or_app; right; right; exact I]. }
    cbn zeta in Ev. cbn zeta. rewrite Ev. cbn [sem_op]. pose proof (stype_keys _ _ T1) as K1. pose proof (stype_keys _ _ T3) as K3. replace (length (map fst (sa ++ (m, tm) :: sb)) =? length (map snd la ++ y :: map snd lc))%nat with true.
    + do 2 f_equal. rewrite map_app. cbn [map fst]. rewrite <- K1, <- K3. clear. assert (Q : forall l : list (string * value_), combine (map fst l) (map snd l) = l) by (induction l as [|[k v] l IHl]; [reflexivity|]; cbn; rewrite IHl; reflexivity). assert (Q2 : forall (a : list (string * value_)) b c, combine (map fst a ++ b) (map snd a ++ c) = a ++ combine b c) by (induction a as [|[k v] a IHa]; intros b c; [reflexivity|]; cbn; rewrite IHa; reflexivity). rewrite Q2. cbn [combine]. rewrite Q. reflexivity.
    + symmetry. apply Nat.eqb_eq. rewrite map_app, !app_length. cbn [map length]. rewrite <- K1, <- K3, !map_length. reflexivity.
  - cbn [plain_path forallb] in Pp. apply ok_inv in St as [[lb pb] [Es St]]. injection St as <- <-. apply good_tuple in G. cbn [inb] in Ib. rewrite E in Ib. apply type_tup in Tu as [l [-> Tl]]. destruct (nth_error_split _ _ E) as [ta [tb [Et La]]]. pose proof Tl as Tl'. rewrite Et in Tl'. apply Forall2_app_inv_r in Tl' as [la [lb' [T1 [T2 El]]]]. inversion T2 as [|x ? lc ? Tx T3]; subst l lb' y l'. assert (Ll : length la = length ta) by (apply (f2_len _ _ _ _ _ T1)).
    assert (Se : forall j v, nth_error (la ++ x :: lc) j = Some v -> tev2 rho rho3 (TOp (OElt ts j) [base]) = Some v) by (intros j v K; rewrite u_tev2_op, u_tevs2, Eb; cbn [tevs2 ov_list sem_op]; rewrite K; reflexivity).
    assert (Gt : good_ty tk) by (rewrite Forall_forall in G; exact (G tk (nth_error_In _ _ E))). assert (Ix : nth_error (la ++ x :: lc) k = Some x) by (rewrite nth_error_app2 by lia; replace (k - length la)%nat with 0%nat by lia; reflexivity).
    destruct (IH rho rho3 _ e lb pb x w Gt Pp Ok1 Es Ib (Se k x Ix) Tx Ew Tw) as [y [Py Ey]]. exists (VTuple (la ++ y :: lc)). cbn [put]. split; [replace k with (length la) by lia; rewrite put_nth_def, Py; reflexivity|]. cbn [choose_many]. rewrite u_tev2_op.
    assert (Ev : tevs2 rho rho3 (map (fun q => if (fst q =? k)%nat then choose_many (TOp (OElt ts (fst q)) [base]) (snd q) r e else TOp (OElt ts (fst q)) [base]) (combine (seq 0 (length ts)) ts)) = Some (la ++ y :: lc)).
    { apply ov_all. apply f2_map_left. assert (Ls : length ts = length (la ++ y :: lc)) by (rewrite Et, !app_length; cbn [length]; rewrite Ll, (f2_len _ _ _ _ _ T3); reflexivity). pose proof (enum _ (la ++ y :: lc)) as En. pose proof (enum _ ts) as En2. rewrite <- Ls in En. set (s := seq 0 (length ts)) in *. clearbody s.
      assert (Q : forall s l m, Forall2 (fun k v => nth_error (la ++ y :: lc) k = Some v) s l -> Forall2 (fun k v => nth_error ts k = Some v) s m -> Forall2 (fun (q : nat * cty) v => tev2 rho rho3 (if (fst q =? k)%nat then choose_many (TOp (OElt ts (fst q)) [base]) (snd q) r e else TOp (OElt ts (fst q)) [base]) = Some v) (combine s m) l).
      { clear En En2. assert (Lk : (length la = k + 0)%nat) by lia. clear La. induction s0 as [|j s0 IHs]; intros l m F1 F2; inversion F1; subst; inversion F2; subst; cbn [combine]; constructor; [|apply IHs; assumption]. cbn [fst snd]. destruct (Nat.eqb_spec j k) as [Ej|D].
        - rewrite Ej in *. match goal with X : nth_error (la ++ y :: lc) k = Some _ |- _ => rewrite nth_error_app2 in X by lia; replace (k - length la)%nat with 0%nat in X by lia; cbn [nth_error] in X end. congruence.
        - apply Se. rewrite (nth_mid _ la lc x y j) by lia. assumption. }
      apply Q; assumption. }
    cbn zeta in Ev. cbn zeta. rewrite Ev. reflexivity.
Qed.

(** ** The range checks *)
Lemma checks_ty : forall (S : tctx) t p te, path_ty S t p te -> tstys S (range_checks t p) S.
Proof.
  induction 1 as [t|ty n i r t Hn Ti H IH|ms m tm r t sa sb -> N H IH|ts k tk r t E H IH]; cbn [range_checks].
  - apply YSnil.
  - eapply YScons; [apply YAssert; eapply YOp; [apply YCons; [exact Ti|apply YCons; [apply lit_ty; exact Hn|apply YNil]]|apply YULt]|]. destruct (n =? 0)%nat; [apply YSnil|exact IH].
  - change (find (fun q : string * cty => (fst q =? m)%string) (sa ++ (m, tm) :: sb)) with (tmem m (sa ++ (m, tm) :: sb)). rewrite (tmem_at _ _ _ _ N). exact IH.
  - rewrite E. exact IH.
Qed.
Lemma checks_defs : forall (S : tctx) t p te, path_ty S t p te -> plain_path p = true -> sdefss (range_checks t p) = [] /\ pdefs p = [].
Proof.
  induction 1 as [t|ty n i r t Hn Ti H IH|ms m tm r t sa sb -> N H IH|ts k tk r t E H IH]; intros Pp; cbn [range_checks pdefs]; cbn [plain_path forallb] in Pp; [split; reflexivity| | |].
  - apply andb_prop in Pp as [P1 P2]. destruct (IH P2) as [A B]. destruct (proj1 plain_flat _ _ _ Ti P1) as [D _]. rewrite D, B. split; [|reflexivity]. rewrite u_sdefss, u_dassert, u_tdefs_op, !u_tdefss, D. destruct (n =? 0)%nat; [reflexivity|exact A].
  - change (find (fun q : string * cty => (fst q =? m)%string) (sa ++ (m, tm) :: sb)) with (tmem m (sa ++ (m, tm) :: sb)). rewrite (tmem_at _ _ _ _ N). exact (IH Pp).
  - rewrite E. exact (IH Pp).
Qed.
Lemma plain_steps : forall (S : tctx) t p te, path_ty S t p te -> plain_path p = true -> forall rho lg ps, okenv S rho -> steps rho p = Ok (lg, ps) -> lg = [].
Proof.
  induction 1 as [t|ty n i r t Hn Ti H IH|ms m tm r t sa sb -> N H IH|ts k tk r t E H IH]; intros Pp rho lg ps Ok1 St; cbn [steps] in St; cbn [plain_path forallb] in Pp.
  - injection St as <- <-. reflexivity.
  - apply andb_prop in Pp as [P1 P2]. apply ok_inv in St as [[la va] [Ei St]]. apply ok_inv in St as [[lb pb] [Es St]]. cbn [fst snd] in St. destruct va; try discriminate St. injection St as <- <-. destruct (proj1 ev2_ok _ _ _ Ti P1 _ _ _ Ok1 Ei) as [-> _]. rewrite (IH P2 _ _ _ Ok1 Es). reflexivity.
  - apply ok_inv in St as [[lb pb] [Es St]]. injection St as <- <-. exact (IH Pp _ _ _ Ok1 Es).
  - apply ok_inv in St as [[lb pb] [Es St]]. injection St as <- <-. exact (IH Pp _ _ _ Ok1 Es).
Qed.
(** the checks pass exactly when the indices are within bounds *)
Lemma texecs_cons : forall s r rho, texecs rho (s :: r) = obnd (texec rho s) (fun a => obnd (texecs (snd a) r) (fun b => Ok (fst a ++ fst b, snd b))).
Proof. reflexivity. Qed.
Theorem checks_run : forall (S : tctx) t p te, path_ty S t p te -> plain_path p = true -> forall rho lg ps, okenv S rho -> steps rho p = Ok (lg, ps) ->
  (inb t ps /\ texecs rho (range_checks t p) = Ok ([], rho)) \/
  (~ inb t ps /\ exists pre e err post, range_checks t p = pre ++ TAssert e err :: post /\ texecs rho pre = Ok ([], rho) /\ teval rho e = Ok ([], VBool false)).
Proof.
  induction 1 as [t|ty n i r t Hn Ti H IH|ms m tm r t sa sb -> N H IH|ts k tk r t E H IH]; intros Pp rho lg ps Ok1 St; cbn [steps] in St; cbn [plain_path forallb] in Pp; cbn [range_checks].
  - injection St as <- <-. left. split; [exact I|reflexivity].
  - apply andb_prop in Pp as [P1 P2]. apply ok_inv in St as [[la va] [Ei St]]. apply ok_inv in St as [[lb pb] [Es St]]. cbn [fst snd] in St. destruct (proj1 ev2_ok _ _ _ Ti P1 _ _ _ Ok1 Ei) as [-> [Tv _]]. apply type_uint in Tv as [z [-> Rz]]. injection St as <- <-. cbn [inb].
    assert (Ev : teval rho (TOp (OCmp TULt) [i; ulit32 n]) = Ok ([], VBool (z <? Z.of_nat n))) by (rewrite u_teval_op, !u_tevals, Ei; reflexivity).
    destruct (z <? Z.of_nat n) eqn:Lt.
    + apply Z.ltb_lt in Lt. replace (n =? 0)%nat with false by (symmetry; apply Nat.eqb_neq; lia). assert (X : texec rho (TAssert (TOp (OCmp TULt) [i; ulit32 n]) eSelRange) = Ok ([], rho)) by (rewrite u_eassert, Ev; reflexivity).
      destruct (IH P2 rho lb pb Ok1 Es) as [[B1 B2]|[B1 [pre [e [err [post [E1 [E2 E3]]]]]]]].
      * left. split; [split; [lia|exact B1]|]. rewrite texecs_cons, X. cbn [obnd fst snd]. rewrite B2. reflexivity.
      * right. split; [tauto|]. exists (TAssert (TOp (OCmp TULt) [i; ulit32 n]) eSelRange :: pre), e, err, post. rewrite E1. split; [reflexivity|]. split; [rewrite texecs_cons, X; cbn [obnd fst snd]; rewrite E2; reflexivity|exact E3].
    + apply Z.ltb_ge in Lt. right. split; [lia|]. eexists [], _, _, _. split; [reflexivity|]. split; [reflexivity|exact Ev].
  - apply ok_inv in St as [[lb pb] [Es St]]. injection St as <- <-. change (find (fun q : string * cty => (fst q =? m)%string) (sa ++ (m, tm) :: sb)) with (tmem m (sa ++ (m, tm) :: sb)). cbn [inb]. rewrite (tmem_at _ _ _ _ N). exact (IH Pp _ _ _ Ok1 Es).
  - apply ok_inv in St as [[lb pb] [Es St]]. injection St as <- <-. cbn [inb]. rewrite E. exact (IH Pp _ _ _ Ok1 Es).
Qed.
End WritesChoose.
