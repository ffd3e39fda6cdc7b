(** Proofs about Writes.v: assignments at a computed index, and programs. *)
From Coq Require Import String Ascii.
From Coq Require Import ZArith NArith List Bool Lia Permutation.
From Verif Require Import PField Interp Bits Zir CgProg UintOpt Str Abi Typed Flatten FlattenOps FlattenSim FlattenRun FlattenEnd Enforce Writes Redefine WritesVal WritesExp WritesChoose WritesRun.
Import ListNotations.
Open Scope Z_scope.

Section WritesEnd.
Context {PF : PrimeField}.

(** the component assigned at position c, when the first c components are new and the others old *)
Lemma component : forall (V W U Vc a O N d a2 O2 Nc d2 : list val) c w, V = a ++ O ++ d -> W = a ++ N ++ d -> U = a2 ++ O2 ++ d2 -> Vc = a2 ++ Nc ++ d2 -> U = firstn c W ++ skipn c V ->
  length a2 = length a -> length O2 = length O -> length N = length O -> length Nc = length O -> ((length a <= c < length a + length O)%nat -> Nc = N) -> nth_error W c = Some w -> nth_error Vc c = Some w.
Proof.
  intros V W U Vc a O N d a2 O2 Nc d2 c w EV EW EU EVc Em L1 L2 L3 L4 Mid H. assert (Lc : (c < length W)%nat) by (apply nth_error_Some; congruence). assert (LW : length W = length V) by (rewrite EV, EW, !app_length; lia).
  assert (Uc : nth_error U c = nth_error V c). { rewrite Em, nth_error_app2 by (rewrite firstn_length_le; lia). rewrite firstn_length_le by lia. rewrite Nat.sub_diag. rewrite <- (firstn_skipn c V) at 2. rewrite nth_error_app2 by (rewrite firstn_length_le; lia). rewrite firstn_length_le by lia. rewrite Nat.sub_diag. reflexivity. }
  destruct (Nat.lt_ge_cases c (length a)) as [A|A]; [|destruct (Nat.lt_ge_cases c (length a + length O)) as [B|B]].
  - rewrite EVc, nth_error_app1 by lia. rewrite EU, nth_error_app1, EV, nth_error_app1 in Uc by lia. rewrite Uc. rewrite EW, nth_error_app1 in H by lia. exact H.
  - rewrite EVc, nth_error_app2, nth_error_app1 by lia. rewrite (Mid (conj A B)). rewrite EW, nth_error_app2, nth_error_app1 in H by lia. rewrite L1. exact H.
  - rewrite EVc, nth_error_app2, nth_error_app2 by lia. rewrite EU, nth_error_app2, nth_error_app2, EV, nth_error_app2, nth_error_app2 in Uc by lia. rewrite EW, nth_error_app2, nth_error_app2 in H by lia.
    replace (c - length a2 - length Nc)%nat with (c - length a2 - length O2)%nat by lia. rewrite Uc. replace (c - length a - length O)%nat with (c - length a - length N)%nat by lia. exact H.
Qed.
Lemma whole_steps : forall (x : Z) (t : cty), assignees t [] (flat_ids (SBase x) t) = Some (flat_ids (SBase x) t).
Proof. reflexivity. Qed.
Theorem var_assign : forall S x t p e te n n' b e', S x = Some t -> good_ty t -> path_ty S t p te -> tty S e te -> nnS S -> plain e = true -> plain_path p = true -> steady x e = true -> apart x t p e = true ->
  redef n (choose_many (TId t x) t p e) = (n', b, e') -> runs_w n n' S S [] (fun rho => wexec rho (WSet x t p e)) (map WS b ++ [WSet x t [] e']).
Proof.
  intros S x t p e te n n' b e' Sx G Pt Te NS Pe Pp St Ap Re. assert (Nx : 0 <= x) by (apply NS; congruence). pose proof (choose_ty _ _ _ _ Pt (TId t x) e G (YId _ _ _ Sx) Te) as TE. pose proof (choose_plain p (TId t x) t e eq_refl Pe Pp) as PE. set (E := choose_many (TId t x) t p e) in *.
  destruct (proj1 plain_flat _ _ _ TE PE) as [DE _]. assert (ND : nnl (tdefs E)) by (rewrite DE; intros y []). destruct (proj1 redefine_ok _ _ _ TE NS ND _ _ _ _ Re) as [L [Ty [On _]]]. destruct (proj1 redef_plain _ _ _ TE NS PE _ _ _ _ Re) as [_ [PE' Ex]].
  assert (De : wdefss (map WS b ++ [WSet x t [] e']) = sdefss b ++ tdefs e') by (rewrite wdefss_app, wdefss_WS, wdefss_cons; cbn [wdefs pdefs app]; change (wdefss []) with (@nil Z); rewrite app_nil_r; reflexivity).
  unfold runs_w. rewrite De. split; [exact L|]. split; [exact NS|]. split; [intros y; rewrite cnt_app, (On y), DE; reflexivity|].
  intros S1 zs X C Fr Fl. apply wflat_app in Fl as [xb [xs [Fb [Fs ->]]]]. rewrite wflat_WS in Fb. apply u_wset in Fs as [ids [ss [ze [As [Fe [Li ->]]]]]]. rewrite whole_steps in As. injection As as <-.
  destruct (Ty S1 X C) as [S2 [A1 [A2 [A3 A4]]]]. destruct (proj1 plain_flat _ _ _ A4 PE') as [De' Fz]. assert (Ess : ss = []) by exact (Fz _ _ Fe). subst ss. rewrite De', app_nil_r in *. cbn [app].
  exists S2. split; [exact (xtn_trans _ _ _ X A2)|]. split; [exact A3|]. split; [exact (dom_tstys _ _ _ A1)|].
  intros rho lg rho' rho1 zr r lz Ev Sa R. pose proof (okenv_rel _ _ _ _ _ NS X Sa R) as Ok1. cbn [wexec] in Ev. apply ok_inv in Ev as [[lp ps] [Es Ev]]. cbn [fst snd] in Ev. apply ok_inv in Ev as [[le w] [Ee Ev]]. cbn [fst snd] in Ev. destruct (rho x) as [v|] eqn:Vx; [|discriminate Ev]. cbn [of_opt obnd] in Ev. destruct (put ps w v) as [v'|] eqn:Pu; [|discriminate Ev]. cbn [of_put obnd] in Ev. injection Ev as <- <-.
  assert (Elp : lp = []) by exact (plain_steps _ _ _ _ Pt Pp _ _ _ Ok1 Es). subst lp. destruct (proj1 ev2_ok _ _ _ Te Pe _ _ _ Ok1 Ee) as [-> [Tw [_ [H1 [H2 H3]]]]].
  assert (Tv : has_type v t) by (destruct (Ok1 x t Sx) as [v0 [V1 V2]]; congruence). pose proof (path_steps _ _ _ _ Pt _ _ _ Es) as Sty. pose proof (put_inb _ _ _ Sty _ _ _ Tv Pu) as Ib.
  assert (EvE : teval rho E = Ok ([], v')). { apply (proj1 self_ok _ _ _ TE PE); [exact Ok1|]. destruct (choose_val _ _ _ _ Pt rho rho (TId t x) e [] ps v w G Pp Ok1 Es Ib Vx Tv (H1 rho (fun _ _ => eq_refl)) Tw) as [u' [U1 U2]]. rewrite Pu in U1. injection U1 as <-. exact U2. }
  destruct (Ex _ _ _ Ok1 EvE _ Sa) as [rho2 [X1 [X2 X3]]]. pose proof (proj2 (proj2 (proj2 flatten_runs)) _ _ _ A1 xb rho1 zr r lz Fb Fr R) as Q. rewrite X1 in Q. destruct Q as [zr1 [Q1 [_ R2]]]. cbn [map] in Q1.
  destruct (put_flat _ _ _ Sty v Tv Ib) as [fa [fo [fd [F1 [F2 [F3 F4]]]]]]. destruct (F4 w Tw) as [v1 [P1 [P2 P3]]]. rewrite Pu in P1. injection P1 as <-.
  assert (S2x : S2 x = Some t) by (apply A2, X; exact Sx). pose proof (same_trans _ _ _ (same_out _ _ _ _ X2) Sa) as Sa2. destruct (R2 x t S2x) as [v0 [V1 [_ Hv]]]. rewrite (Sa2 x Nx), Vx in V1. injection V1 as <-.
  assert (Lids : length (flat_ids (SBase x) t) = length (flat_val v')) by (rewrite ids_length, (flat_val_length t v' P2); reflexivity).
  destruct (seq_defs (flat_ids (SBase x) t) ze (flat_val v') zr1 r (lz ++ []) (ids_nodup t (SBase x) G)) with (ids := flat_ids (SBase x) t) (zs := ze) (ws := flat_val v') (pi := @nil (sid * lty)) (pz := @nil zexp) (pw := @nil val) (zrc := zr1) as [zr' [Y1 [Y2 Y3]]]; try reflexivity; try (symmetry; assumption); try constructor.
  - intros pi pz pw id z wc ri rz rw zrc E1 E2 E3 L1 L2 Ag Ho. set (c := length pi). destruct (mix t v v' c G Tv P2) as [u [Tu Fu]].
    assert (Fw : firstn c (flat_val v') = pw) by (rewrite E3; unfold c; rewrite <- L2, firstn_app, firstn_all, Nat.sub_diag; cbn [firstn]; apply app_nil_r).
    (* the state when the component is assigned *)
    assert (Hu : holds zrc x t u).
    { unfold holds. rewrite Fu, Fw. unfold holds in Hv. rewrite E1 in *. apply Forall2_app; [exact Ho|]. change (Forall2 (held zr1) (pi ++ id :: ri) (flat_val v)) in Hv. apply f2_split in Hv as [va [vb [Ev [Ha Hb]]]]. assert (Lva : length va = c) by (symmetry; exact (f2_len _ _ _ _ _ Ha)). rewrite Ev, <- Lva, skipn_app, skipn_all, Nat.sub_diag. cbn [skipn app].
      change (Forall2 (held zrc) (id :: ri) vb). apply (held_ext zr1); [|exact Hb]. intros q Qi. apply Ag. intros I. pose proof (ids_nodup t (SBase x) G) as Nd. rewrite E1, map_app in Nd. apply nodup_app_inv in Nd as [_ [_ Nd]]. apply (Nd _ I). apply in_map. exact Qi. }
    assert (Rc : rel S2 (tupd rho2 x u) zrc).
    { intros y s Ey. unfold tupd. destruct (Z.eqb_spec y x) as [Exy|D]; [rewrite Exy in *; rewrite S2x in Ey; injection Ey as <-; exists u; auto|]. destruct (R2 y s Ey) as [q [W1 [W2 W3]]]. exists q. split; [exact W1|]. split; [exact W2|]. apply (holds_agree zr1); [exact W3|]. intros s' Hs. apply Ag. intros I. apply in_map_iff in I as [[s2 l2] [Es2 Is]]. cbn [fst] in Es2. subst s2. apply D. rewrite <- Hs. apply (ids_base t (SBase x) s' l2). rewrite E1. apply in_or_app. left. exact Is. }
    assert (Nr : near S x rho (tupd rho2 x u)).
    { split; [intros y s Ey; destruct (Rc y s (A2 _ _ (X _ _ Ey))) as [q [W1 [W2 _]]]; exists q; auto|]. intros y Sy D. unfold tupd. destruct (Z.eqb_spec y x) as [Exy|_]; [contradiction|]. apply Sa2. apply NS. exact Sy. }
    destruct (H2 x _ Nr St) as [wn [Wn Twn]]. assert (Vxc : tev2 rho (tupd rho2 x u) (TId t x) = Some u) by (cbn [tev2]; unfold tupd; rewrite Z.eqb_refl; reflexivity).
    destruct (choose_val _ _ _ _ Pt rho (tupd rho2 x u) (TId t x) e [] ps u wn G Pp Ok1 Es Ib Vxc Tu Wn Twn) as [vc [Pc Ec]].
    assert (Ec' : teval (tupd rho2 x u) e' = Ok ([], vc)). { apply X3; [|exact Ec]. intros y I. unfold tupd. destruct (Z.eqb_spec y x) as [Exy|_]; [exfalso; apply (not_cids x n n' Nx); rewrite <- Exy; exact I|reflexivity]. }
    pose proof (proj1 flatten_runs _ _ _ A4 [] ze (tupd rho2 x u) zrc [] [] Fe) as Fin. rewrite De' in Fin. specialize (Fin (conj (NoDup_nil _) (fun y (I : In y []) => match I with end)) Rc). rewrite Ec' in Fin. destruct Fin as [Tvc [zr3 [Z1 [_ Z2]]]]. cbn [sem_stmts map app] in Z1. injection Z1 as <-. specialize (Z2 zrc (agree_refl _ _ _)).
    assert (Nth : nth_error (flat_val vc) c = Some wc).
    { destruct (put_flat _ _ _ Sty u Tu Ib) as [ga [go [gd [G1 [G2 [G3 G4]]]]]]. destruct (G4 wn Twn) as [vc' [J1 [_ J3]]]. rewrite Pc in J1. injection J1 as <-.
      apply (component (flat_val v) (flat_val v') (flat_val u) (flat_val vc) fa fo (flat_val w) fd ga go (flat_val wn) gd c wc F1 P3 G1 J3 Fu); try congruence; try (rewrite (flat_val_length te) by assumption; congruence).
      - intros Mid. assert (Ewn : wn = w).
        { unfold apart in Ap. rewrite (path_part _ _ _ _ Pt) in Ap. apply orb_prop in Ap as [Ap|Ap].
          - apply negb_true_iff in Ap. rewrite (H3 x _ Nr Ap) in Wn. congruence.
          - apply scalar_count in Ap. assert (Cc : c = length fa) by lia. assert (Euv : u = v). { apply (flat_inj t); [exact Tu|exact Tv|]. rewrite Fu, Cc, P3, F1, firstn_app, firstn_all, Nat.sub_diag, skipn_app, skipn_all, Nat.sub_diag. cbn [firstn skipn app]. rewrite app_nil_r. reflexivity. }
            assert (Wv : tev2 rho (tupd rho2 x u) e = Some w); [|congruence]. apply H1. intros y Sy. unfold tupd. destruct (Z.eqb_spec y x) as [Exy|_]; [rewrite Exy, Euv; symmetry; exact Vx|]. apply Sa2. apply NS. exact Sy. }
        rewrite Ewn. reflexivity.
      - rewrite E3, nth_error_app2 by (unfold c; lia). unfold c. rewrite L2, Nat.sub_diag. reflexivity. }
    unfold rps in Z2. rewrite E2 in Z2. apply f2_split in Z2 as [x1 [x2 [Eq [Y1 Y2]]]]. assert (Lx : length x1 = c) by (rewrite <- (f2_len _ _ _ _ _ Y1); exact L1). rewrite Eq, nth_error_app2 in Nth by lia. rewrite Lx, Nat.sub_diag in Nth. inversion Y2 as [|? ? ? ? [Sz _] _]; subst x2. cbn [nth_error] in Nth. injection Nth as <-. exact Sz.
  - exists zr', (tupd rho2 x v'), []. split; [rewrite sem_stmts_app, Q1; exact Y1|]. split; [reflexivity|]. split; [apply same_upd; exact Sa2|].
    apply (assign_ok S2 rho2 zr1 zr' x t [] t v v' v' (flat_ids (SBase x) t)); try assumption; try reflexivity; [|apply STnil]. rewrite (Sa2 x Nx). exact Vx.
Qed.

(** ** A statement of the program *)
Theorem stmt_runs : forall S s S', wsty S s S' -> nnS S -> nnl (wdefs s) -> safe_write s = true -> forall n n' l, redef_ws n (remove_write s) = (n', l) -> runs_w n n' S S' (wdefs s) (fun rho => wexec rho s) l.
Proof.
  intros S s S' T NS ND Sw n n' l H. destruct T as [S s S1 T|S x t p e te Sx G Pt Te].
  - change (remove_write (WS s)) with (map WS [s]) in H. rewrite redef_ws_WS in H. destruct (redef_stmts n [s]) as [n1 l1] eqn:E. injection H as <- <-. cbn [wdefs] in *. apply (runs_weaken n n1 S S1 (sdefss [s]) (sdefs s) (fun rho => texecs rho [s]) (fun rho => texec rho s)).
    + exact NS.
    + intros y. rewrite u_sdefss. change (sdefss []) with (@nil Z). rewrite app_nil_r. reflexivity.
    + intros rho lg rho' _ Ev. rewrite texecs_one. exact Ev.
    + apply (runs_plain [s] S S1); [apply tstys_one; exact T|exact NS| |exact E]. rewrite u_sdefss. change (sdefss []) with (@nil Z). rewrite app_nil_r. exact ND.
  - cbn [safe_write] in Sw. apply andb_prop in Sw as [Ap Sw]. cbn [remove_write] in H. cbn [wdefs] in *. destruct (const_path p) eqn:Cp.
    + cbn [redef_ws redef_w] in H. rewrite (const_defs p Cp) in *. cbn [app] in *. destruct (redef n e) as [[n1 b1] e1] eqn:Re. rewrite (const_redef p n1 Cp) in H. rewrite !app_nil_r in H. injection H as <- <-. apply (const_write S x t p e te n n1 b1 e1); assumption.
    + cbn [orb] in Sw. apply andb_prop in Sw as [Sw St]. apply andb_prop in Sw as [Pe Pp]. destruct (checks_defs _ _ _ _ Pt Pp) as [Dc Dp]. destruct (proj1 plain_flat _ _ _ Te Pe) as [De _]. rewrite redef_ws_app, redef_ws_WS in H. destruct (redef_stmts n (range_checks t p)) as [n1 l1] eqn:E1. cbn [redef_ws redef_w redef_path] in H. destruct (redef n1 (choose_many (TId t x) t p e)) as [[n2 b2] e2] eqn:E2. rewrite !app_nil_r in H. injection H as <- <-.
      assert (R1 : runs_w n n1 S S (sdefss (range_checks t p)) (fun rho => texecs rho (range_checks t p)) (map WS l1)) by (apply (runs_plain _ S S); [exact (checks_ty _ _ _ _ Pt)|exact NS|rewrite Dc; intros y []|exact E1]).
      pose proof (var_assign S x t p e te n1 n2 b2 e2 Sx G Pt Te NS Pe Pp St Ap E2) as R2. pose proof (runs_app _ _ _ _ _ _ _ _ _ _ _ _ R1 R2) as R3. revert R3. apply runs_weaken; [exact NS|rewrite Dc, Dp, De; reflexivity|].
      intros rho lg rho' Ok1 Ev. pose proof Ev as Ev0. cbn [wexec] in Ev. apply ok_inv in Ev as [[lp ps] [Es Ev]]. cbn [fst snd] in Ev. apply ok_inv in Ev as [[le w] [Ee Ev]]. cbn [fst snd] in Ev. destruct (rho x) as [v|] eqn:Vx; [|discriminate Ev]. cbn [of_opt obnd] in Ev. destruct (put ps w v) as [v'|] eqn:Pu; [|discriminate Ev]. clear Ev.
      assert (Tv : has_type v t) by (destruct (Ok1 x t Sx) as [v0 [V1 V2]]; congruence). pose proof (put_inb _ _ _ (path_steps _ _ _ _ Pt _ _ _ Es) _ _ _ Tv Pu) as Ib. destruct (checks_run _ _ _ _ Pt Pp _ _ _ Ok1 Es) as [[_ X]|[X _]]; [|contradiction]. rewrite X. cbn [obnd fst snd]. rewrite Ev0. reflexivity.
Qed.
Lemma nnl_app1 : forall a b, nnl a -> nnl b -> nnl (a ++ b).
Proof. intros a b A B y I. apply in_app_or in I as [I|I]; auto. Qed.
Theorem body_runs : forall ss S S', wstys S ss S' -> nnS S -> nnl (wdefss ss) -> forallb safe_write ss = true -> forall n n' l, redef_ws n (flat_map remove_write ss) = (n', l) -> runs_w n n' S S' (wdefss ss) (fun rho => wexecs rho ss) l.
Proof.
  induction ss as [|s ss IH]; intros S S' T NS ND Sw n n' l H; inversion T as [|? S1 ? ? ? T1 T2]; subst.
  - injection H as <- <-. split; [lia|]. split; [exact NS|]. split; [intros y; rewrite cids_same; reflexivity|]. intros S1 zs X C Fr Fl. injection Fl as <-. exists S1. split; [exact X|]. split; [exact C|]. split; [intros y Y; left; exact Y|]. intros rho lg rho' rho1 zr r lz Ev Sa R. cbn [wexecs] in Ev. injection Ev as <- <-. exists zr, rho1, []. cbn [map]. rewrite app_nil_r. split; [reflexivity|]. split; [reflexivity|]. split; assumption.
  - cbn [flat_map] in H. rewrite redef_ws_app in H. destruct (redef_ws n (remove_write s)) as [n1 l1] eqn:E1. destruct (redef_ws n1 (flat_map remove_write ss)) as [n2 l2] eqn:E2. injection H as <- <-. cbn [forallb] in Sw. apply andb_prop in Sw as [Sw1 Sw2]. rewrite wdefss_cons in *. apply nnl_app in ND as [ND1 ND2].
    pose proof (stmt_runs _ _ _ T1 NS ND1 Sw1 _ _ _ E1) as R1. assert (NS1 : nnS S1) by (apply R1). pose proof (IH _ _ T2 NS1 ND2 Sw2 _ _ _ E2) as R2. pose proof (runs_app _ _ _ _ _ _ _ _ _ _ _ _ R1 R2) as R3. exact R3.
Qed.

(** ** Programs *)
Definition nonneg_ids (p : wprog) : Prop := nnl (map (fun q => fst (fst q)) (wargs p) ++ wdefss (wbody p) ++ tdefs (wret p)).
Lemma once_fresh : forall (S : tctx) D D0 n, (forall y, cnt y D = cnt y D0 + cnt y (cids 0 n))%nat -> NoDup D0 -> nnl D0 -> (forall y, In y D0 -> S y = None) -> nnS S -> fresh S D.
Proof.
  intros S D D0 n C N P F NS. split.
  - apply (NoDup_count_occ Z.eq_dec). intros y. change (cnt y D <= 1)%nat. rewrite C. pose proof (proj1 (NoDup_count_occ Z.eq_dec D0) N y) as A. change (cnt y D0 <= 1)%nat in A. pose proof (proj1 (NoDup_count_occ Z.eq_dec _) (cids_nodup 0 n) y) as B. change (cnt y (cids 0 n) <= 1)%nat in B.
    destruct (Z.lt_ge_cases y 0) as [Y|Y]; [|assert (Z0 : cnt y (cids 0 n) = 0%nat) by (apply count_occ_not_In, not_cids; lia); lia]. assert (Z0 : cnt y D0 = 0%nat) by (apply count_occ_not_In; intros I; apply P in I; lia). lia.
  - intros y I. assert (J : In y D0 \/ In y (cids 0 n)). { apply (count_occ_In Z.eq_dec) in I. change (cnt y D > 0)%nat in I. rewrite C in I. destruct (cnt y D0) eqn:E; [right|left]; apply (count_occ_In Z.eq_dec); [change (cnt y (cids 0 n) > 0)%nat; lia|change (cnt y D0 > 0)%nat; lia]. }
    destruct J as [J|J]; [apply F; exact J|]. destruct (S y) eqn:E; [|reflexivity]. exfalso. apply (not_cids y 0 n); [apply NS; congruence|exact J].
Qed.
Lemma wcompile_inv : forall p z, wcompile p = Some z -> exists n1 l n2 b e' zl zb sr zs, redef_ws 0 (flat_map remove_write (wbody p)) = (n1, l) /\ redef n1 (wret p) = (n2, b, e') /\ wflat_stmts l = Some zl /\ tflat_stmts b = Some zb /\ tflat e' = Some (sr, zs) /\
  z = mkZProg (flat_map flat_param (wargs p)) ((zl ++ zb) ++ sr ++ [ZReturn zs]) (prim_count (wretty p)).
Proof.
  intros p z H. unfold wcompile, redef_prog, remove_writes in H. cbn [wargs wbody wret wretty] in H. destruct (redef_ws 0 (flat_map remove_write (wbody p))) as [n1 l]. destruct (redef n1 (wret p)) as [[n2 b] e'] eqn:E2. unfold wflatten in H. cbn [wargs wbody wret wretty] in H. destruct (wflat_stmts (l ++ map WS b)) as [zz|] eqn:F; [|discriminate H]. destruct (tflat e') as [[sr zs]|] eqn:Fe; [|discriminate H]. injection H as <-.
  apply wflat_app in F as [zl [zb [F1 [F2 ->]]]]. rewrite wflat_WS in F2. exists n1, l, n2, b, e', zl, zb, sr, zs. auto 10.
Qed.
Lemma wparams_nn : forall p, nonneg_ids p -> nnS (tparams (wargs p)).
Proof. intros p N y Y. apply N. apply in_or_app. left. destruct (tparams_dom (wargs p) (fun _ => None) y Y) as [H|H]; [contradiction H; reflexivity|exact H]. Qed.
Lemma cfree_nn : forall S n, nnS S -> cfree n S.
Proof. intros S n H k _. destruct (S (cid k)) eqn:E; [|reflexivity]. exfalso. pose proof (cid_neg k). assert (0 <= cid k) by (apply H; congruence). lia. Qed.
Lemma wsetup : forall p z, wwell_typed p -> nonneg_ids p -> wcompile p = Some z -> exists S' n1 l n2 b e' zl zb sr zs,
  wstys (tparams (wargs p)) (wbody p) S' /\ tty S' (wret p) (wretty p) /\ nnS (tparams (wargs p)) /\ nnl (wdefss (wbody p)) /\ nnl (tdefs (wret p)) /\
  redef_ws 0 (flat_map remove_write (wbody p)) = (n1, l) /\ redef n1 (wret p) = (n2, b, e') /\ wflat_stmts l = Some zl /\ tflat_stmts b = Some zb /\ tflat e' = Some (sr, zs) /\
  z = mkZProg (flat_map flat_param (wargs p)) ((zl ++ zb) ++ sr ++ [ZReturn zs]) (prim_count (wretty p)).
Proof.
  intros p z [G [[S' [T1 T2]] Nd]] Nn H. apply wcompile_inv in H as [n1 [l [n2 [b [e' [zl [zb [sr [zs [H1 [H2 [H3 [H4 [H5 H6]]]]]]]]]]]]]]. pose proof (wparams_nn p Nn) as NS. unfold nonneg_ids in Nn. apply nnl_app in Nn as [_ Nn]. apply nnl_app in Nn as [Nn1 Nn2]. exists S', n1, l, n2, b, e', zl, zb, sr, zs. auto 12.
Qed.
Theorem wcompile_run : forall p z vs v lg, wide -> wwell_typed p -> nonneg_ids p -> forallb safe_write (wbody p) = true -> wcompile p = Some z -> Forall2 has_type vs (map pty (wargs p)) -> wrun p vs = Ok (v, lg) ->
  has_type v (wretty p) /\ exists lz, sem_prog z (encode_values vs) = Some (encode v, lz) /\ Permutation lz (map zentry lg).
Proof.
  intros p z vs v lg W Wt Nn Sw H Tv Rn. destruct (wsetup p z Wt Nn H) as [S' [n1 [l [n2 [b [e' [zl [zb [sr [zs [T1 [T2 [NS [N1 [N2 [E1 [E2 [F1 [F2 [F3 ->]]]]]]]]]]]]]]]]]]]]. destruct Wt as [G [_ Nd]].
  pose proof (body_runs _ _ _ T1 NS N1 Sw _ _ _ E1) as [L1 [NS' [C1 R1]]]. destruct (runs_expr S' _ _ T2 NS' N2 _ _ _ _ E2) as [L2 [C2 R2]].
  assert (Fr : fresh (tparams (wargs p)) (wdefss l ++ sdefss b ++ tdefs e')).
  { apply (once_fresh _ _ (wdefss (wbody p) ++ tdefs (wret p)) n2).
    - intros y. specialize (C1 y). specialize (C2 y). rewrite !cnt_app in *. rewrite C1, (cids_split 0 n1 n2), cnt_app by lia. lia.
    - apply nodup_app_inv in Nd as [_ [Nd _]]. exact Nd.
    - apply nnl_app1; assumption.
    - intros y I. destruct (tparams (wargs p) y) as [t|] eqn:E; [|reflexivity]. exfalso. apply nodup_app_inv in Nd as [_ [_ Nd]]. apply (Nd y); [|exact I]. destruct (tparams_dom (wargs p) (fun _ => None) y) as [X|X]; [unfold tparams in E; rewrite E; discriminate|contradiction X; reflexivity|exact X].
    - exact NS. }
  destruct (fresh_app _ _ _ Fr) as [Fr1 _]. destruct (R1 _ zl (xtn_refl _) (cfree_nn _ 0 NS) Fr1 F1) as [S2 [X2 [K2 [D2 Q2]]]]. pose proof (fresh_next _ _ _ _ Fr D2) as Fr2. assert (Pf : pre_flat b e' = Some (zb ++ sr, zs)) by (unfold pre_flat; rewrite F2, F3; reflexivity). destruct (R2 S2 _ _ X2 K2 Fr2 Pf) as [S3 [X3 [K3 [D3 Q3]]]].
  destruct (bind_args W (wargs p) vs _ _ _ G Tv rel_nil) as [zr [B R]]. change (fold_left _ (wargs p) (fun _ => None)) with (tparams (wargs p)) in R.
  unfold wrun in Rn. apply ok_inv in Rn as [[la ra] [Ea Rn]]. apply ok_inv in Rn as [[lb vb] [Eb Rn]]. cbn [fst snd] in *. injection Rn as <- <-.
  destruct (Q2 _ _ _ _ _ [] [] Ea (same_refl _) R) as [zr1 [rho1 [g1 [P1 [P2 [P3 P4]]]]]]. destruct (Q3 _ _ _ _ _ [] ([] ++ map zentry g1) Eb P3 P4) as [zr2 [rho2 [g2 [Y1 [Y2 [_ [Y4 [_ [Tr Y5]]]]]]]]].
  split; [exact Tr|]. exists (map zentry (g1 ++ g2)). split.
  - unfold sem_prog. cbn [zargs zbody]. rewrite B, <- app_assoc, sem_stmts_app, P1, app_assoc, sem_stmts_app, Y1. cbn [sem_stmts sem_stmt os_env os_log os_ret]. rewrite (rps_sem _ _ _ (Y5 zr2 (agree_refl _ _ _))). cbn [os_ret os_log app]. rewrite (flat_val_encode _ _ Tr), map_app. reflexivity.
  - apply ecnt_perm. intros y. rewrite !ecnt_app, P2, Y2. reflexivity.
Qed.

(** ** Failures *)
(** the statement s fails in the environment rho: a false assertion of the main function, or an index out of bounds in an assignment at a computed position; if [R] is set,
    or a built-in function that rejects its arguments *)
Definition fails_at (R : bool) (rho : tenv) (s : wstmt) : Prop :=
  match s with
  | WS (TAssert e _) => exists lg, teval rho e = Ok (lg, VBool false)
  | WS (TEmb _ _ em args) => R = true /\ exists lg us, tevals rho args = Ok (lg, us) /\ sem_emb em us = Failed
  | WSet x t p e => const_path p = false /\ exists l1 ps l2 w v, steps rho p = Ok (l1, ps) /\ teval rho e = Ok (l2, w) /\ rho x = Some v /\ put ps w v = None
  | _ => False
  end.
Definition wfails_k (R : bool) (p : wprog) (vs : list value_) : Prop :=
  exists pre s post lg rho, wbody p = pre ++ s :: post /\ wexecs (tbind (fun _ => None) (wargs p) vs) pre = Ok (lg, rho) /\ fails_at R rho s.
Definition wfails : wprog -> list value_ -> Prop := wfails_k false.
Lemma redef_stmts_app : forall a b n, redef_stmts n (a ++ b) = let '(n1, x) := redef_stmts n a in let '(n2, y) := redef_stmts n1 b in (n2, x ++ y).
Proof.
  induction a as [|s a IH]; intros b n; cbn [app]; [change (redef_stmts n []) with (n, @nil tstmt); cbv beta iota; destruct (redef_stmts n b); reflexivity|]. rewrite !u_redef_stmts. destruct (redef_stmt n s) as [n1 x]. rewrite IH. destruct (redef_stmts n1 a) as [n2 y]. destruct (redef_stmts n2 b) as [n3 w]. rewrite app_assoc. reflexivity.
Qed.
Lemma assert_violates : forall K pre e err post S S' n n' l, tstys S (pre ++ TAssert e err :: post) S' -> nnS S -> nnl (sdefss (pre ++ TAssert e err :: post)) -> redef_stmts n (pre ++ TAssert e err :: post) = (n', l) ->
  forall S1 zs, xtn S S1 -> cfree n S1 -> fresh S1 (sdefss l) -> tflat_stmts l = Some zs -> forall rho lg rho' lg2 rho1 zr r lz, texecs rho pre = Ok (lg, rho') -> teval rho' e = Ok (lg2, VBool false) -> same rho1 rho -> rel S1 rho1 zr -> violatess K (mkOuts zr r lz) zs.
Proof.
  intros K pre e err post S S' n n' l T NS ND H S1 zs X C Fr Fl rho lg rho' lg2 rho1 zr r lz E1 E2 Sa R. apply tstys_app_inv in T as [Sp [Ta Tb]]. inversion Tb as [|? Sq ? ? ? Ts Tp]; subst. inversion Ts as [|? ? ? Te| |]; subst. rewrite sdefss_app, u_sdefss, u_dassert in ND. apply nnl_app in ND as [ND1 ND2]. apply nnl_app in ND2 as [ND2 _].
  rewrite redef_stmts_app in H. destruct (redef_stmts n pre) as [n1 l1] eqn:H1. rewrite u_redef_stmts, u_redef_assert in H. destruct (redef n1 e) as [[n2 b] e'] eqn:H2. destruct (redef_stmts n2 post) as [n3 l3] eqn:H3. injection H as <- <-.
  destruct (runs_plain pre S Sq Ta NS ND1 _ _ _ H1) as [L1 [NS1 [_ R1]]]. destruct (runs_expr Sq e CBool Te NS1 ND2 _ _ _ _ H2) as [L2 [_ R2]].
  apply tflat_app_inv in Fl as [z1 [z23 [F1 [F2 ->]]]]. apply tflat_app_inv in F2 as [z2 [z3 [F2 [F3 ->]]]]. apply tflat_app_inv in F2 as [zb [za [Fb [Fa ->]]]].
  change (tflat_stmts [TAssert e' err]) with (match tflat_stmt (TAssert e' err) with Some a => Some (a ++ []) | None => None end) in Fa. rewrite u_fassert in Fa. destruct (tflat e') as [[se ze]|] eqn:Fe; [|discriminate Fa]. destruct (popE ze) as [zc|] eqn:Ep; [|discriminate Fa]. injection Fa as <-.
  rewrite !sdefss_app, u_sdefss, u_dassert in Fr. change (sdefss []) with (@nil Z) in Fr. rewrite app_nil_r in Fr. destruct (fresh_app _ _ _ Fr) as [Fr1 _]. rewrite <- wflat_WS in F1. rewrite <- wdefss_WS in Fr1. destruct (R1 S1 z1 X C Fr1 F1) as [S2 [A1 [A2 [A3 A4]]]]. rewrite wdefss_WS in A3. pose proof (fresh_next _ _ _ _ Fr A3) as Fr2. destruct (fresh_app _ _ _ Fr2) as [Fr3 _].
  destruct (A4 _ _ _ _ _ r lz E1 Sa R) as [zr1 [rho2 [g1 [P1 [_ [P3 P4]]]]]]. apply (viol_app_r _ _ _ _ _ P1). apply viol_app_l. assert (Pf : pre_flat b e' = Some (zb ++ se, ze)) by (unfold pre_flat; rewrite Fb, Fe; reflexivity). destruct (R2 S2 _ _ A1 A2 Fr3 Pf) as [S3 [B1 [B2 [B3 B4]]]]. destruct (B4 _ _ _ _ _ r (lz ++ map zentry g1) E2 P3 P4) as [zr2 [rho3 [g2 [Y1 [_ [_ [_ [_ [_ Y5]]]]]]]]].
  rewrite app_nil_r, app_assoc. apply (viol_app_r _ _ _ _ _ Y1). pose proof (Y5 zr2 (agree_refl _ _ _)) as Q. unfold rps in Q. cbn [flat_val] in Q. inversion Q as [|z0 ? zr0 ? [Z1 _] Z2]; subst. inversion Z2; subst. rewrite pop_one in Ep. injection Ep as <-. apply VHere, VAssert. exact Z1.
Qed.
Lemma emb_violates : forall S x t em args ts n n' b args', ttys S args ts -> emb_ty em ts t -> nnS S -> nnl (tdefss args) -> redefs n args = (n', b, args') ->
  forall S1 zs, xtn S S1 -> cfree n S1 -> fresh S1 (sdefss b ++ tdefss args') -> tflat_stmts (b ++ [TEmb x t em args']) = Some zs ->
  forall rho lg us rho1 zr r lz, tevals rho args = Ok (lg, us) -> sem_emb em us = Failed -> same rho1 rho -> rel S1 rho1 zr -> violatess true (mkOuts zr r lz) zs.
Proof.
  intros S x t em args ts n n' b args' T Y NS ND H S1 zs X C Fr Fl rho lg us rho1 zr r lz Ev Ef Sa R.
  destruct (proj1 (proj2 redefine_ok) _ _ _ T NS ND _ _ _ _ H) as [L [Ty [O [V _]]]]. destruct (Ty S1 X C) as [S2 [A1 [A2 [A3 A4]]]]. pose proof (dom_tstys _ _ _ A1) as Dm.
  destruct (V _ _ _ Ev _ Sa) as [lb [rho2 [X1 [X2 X3]]]]. apply tflat_app_inv in Fl as [xb [xe [Fb [Fe ->]]]].
  change (tflat_stmts [TEmb x t em args']) with (match tflat_stmt (TEmb x t em args') with Some a => Some (a ++ []) | None => None end) in Fe. rewrite u_femb in Fe. destruct (tflats args') as [[se zss]|] eqn:Fa; [|discriminate Fe]. injection Fe as <-.
  destruct (fresh_app _ _ _ Fr) as [Fr1 _]. pose proof (fresh_next _ _ _ _ Fr Dm) as Fr2. pose proof (proj2 (proj2 (proj2 flatten_runs)) _ _ _ A1 xb rho1 zr r lz Fb Fr1 R) as Q. rewrite X1 in Q. destruct Q as [zr1 [Q1 [Q2 Q3]]].
  destruct (X3 rho2) as [le [E1 E2]]; [apply (same_trans _ rho1); [apply (same_out n n'); exact X2|exact Sa]|reflexivity|]. pose proof (proj1 (proj2 flatten_runs) _ _ _ A4 se zss rho2 zr1 r (lz ++ map zentry lb) Fa Fr2 Q3) as P. rewrite E1 in P. destruct P as [Tv [zr2 [P1 [P2 P3]]]].
  apply (viol_app_r _ _ _ _ _ Q1). rewrite app_nil_r. apply (viol_app_r _ _ _ _ _ P1).
  assert (Z1 : sem_list zr2 (concat zss) = Some (flat_map flat_val us)) by (apply rp_sem, f2_concat, (P3 zr2 (agree_refl _ _ _))).
  pose proof (emb_ok em ts t us Y Tv) as Z0. rewrite Ef in Z0. apply VHere. apply (VEmb true _ _ em _ (flat_map flat_val us) eq_refl (emb_rejects _ _ Ef)); [exact Z1|exact Z0].
Qed.
Theorem fails_violates : forall K S s S', wsty S s S' -> nnS S -> nnl (wdefs s) -> safe_write s = true -> forall n n' l, redef_ws n (remove_write s) = (n', l) ->
  forall S1 zs, xtn S S1 -> cfree n S1 -> fresh S1 (wdefss l) -> wflat_stmts l = Some zs -> forall rho rho1 zr r lz, fails_at K rho s -> same rho1 rho -> rel S1 rho1 zr -> violatess K (mkOuts zr r lz) zs.
Proof.
  intros K S s S' T NS ND Sw n n' l H S1 zs X C Fr Fl rho rho1 zr r lz Fa Sa R. destruct T as [S s S2 T|S x t p e te Sx G Pt Te].
  - destruct s as [|e err|y u em args|]; try (destruct Fa; fail); cbn [fails_at] in Fa; try contradiction.
    2:{ destruct Fa as [-> [lg [us [Ev Ef]]]]. change (remove_write (WS (TEmb y u em args))) with (map WS [TEmb y u em args]) in H. rewrite redef_ws_WS in H. rewrite u_redef_stmts, u_redef_emb in H. destruct (redefs n args) as [[n1 b] args'] eqn:E. change (redef_stmts n1 []) with (n1, @nil tstmt) in H. cbv beta iota in H. rewrite app_nil_r in H. injection H as <- <-.
        rewrite wdefss_WS, sdefss_app, u_sdefss, u_demb in Fr. change (sdefss []) with (@nil Z) in Fr. rewrite app_nil_r, app_assoc in Fr. destruct (fresh_app _ _ _ Fr) as [Fr1 _]. rewrite wflat_WS in Fl. inversion T as [| |? ? ? ? ? ts Ta Y|]; subst. cbn [wdefs] in ND. rewrite u_demb in ND. apply nnl_app in ND as [ND _].
        exact (emb_violates S y u em args ts n n1 b args' Ta Y NS ND E S1 zs X C Fr1 Fl rho lg us rho1 zr r lz Ev Ef Sa R). }
    destruct Fa as [lg Ev]. change (remove_write (WS (TAssert e err))) with (map WS [TAssert e err]) in H. rewrite redef_ws_WS in H. destruct (redef_stmts n [TAssert e err]) as [n1 l1] eqn:E. injection H as <- <-. rewrite wdefss_WS in Fr. rewrite wflat_WS in Fl.
    apply (assert_violates K [] e err [] S S2 n n1 l1) with (S1 := S1) (rho := rho) (lg := []) (rho' := rho) (lg2 := lg) (rho1 := rho1); try assumption; try reflexivity; [apply tstys_one; exact T|]. cbn [app]. rewrite u_sdefss. change (sdefss []) with (@nil Z). rewrite app_nil_r. exact ND.
  - cbn [fails_at] in Fa. destruct Fa as [Cp [l1 [ps [l2 [w [v [Es [Ee [Vx Pu]]]]]]]]]. cbn [safe_write] in Sw. rewrite Cp in Sw. apply andb_prop in Sw as [_ Sw]. cbn [orb] in Sw. apply andb_prop in Sw as [Sw _]. apply andb_prop in Sw as [Pe Pp]. cbn [remove_write] in H. rewrite Cp in H. rewrite redef_ws_app, redef_ws_WS in H. destruct (redef_stmts n (range_checks t p)) as [n1 lc] eqn:E1. destruct (redef_ws n1 [WSet x t [] (choose_many (TId t x) t p e)]) as [n2 lw] eqn:E2. injection H as <- <-.
    pose proof (okenv_rel _ _ _ _ _ NS X Sa R) as Ok1. assert (Tv : has_type v t) by (destruct (Ok1 x t Sx) as [v0 [V1 V2]]; congruence). pose proof (path_steps _ _ _ _ Pt _ _ _ Es) as Sty. destruct (proj1 ev2_ok _ _ _ Te Pe _ _ _ Ok1 Ee) as [_ [Tw _]]. destruct (checks_run _ _ _ _ Pt Pp _ _ _ Ok1 Es) as [[Ib _]|[_ [pre [c [err [post [Ec [Ep Ev]]]]]]]].
    + exfalso. destruct (put_flat _ _ _ Sty v Tv Ib) as [fa [fo [fd [_ [_ [_ F4]]]]]]. destruct (F4 w Tw) as [v1 [P1 _]]. congruence.
    + apply wflat_app in Fl as [z1 [z2 [F1 [_ ->]]]]. apply viol_app_l. rewrite wflat_WS in F1. rewrite wdefss_app, wdefss_WS in Fr. destruct (fresh_app _ _ _ Fr) as [Fr1 _]. destruct (checks_defs _ _ _ _ Pt Pp) as [Dc _]. pose proof (checks_ty _ _ _ _ Pt) as Ty. rewrite Ec in Ty, E1, Dc.
      apply (assert_violates K pre c err post S S n n1 lc) with (S1 := S1) (rho := rho) (lg := []) (rho' := rho) (lg2 := []) (rho1 := rho1); try assumption. rewrite Dc. intros y [].
Qed.
Lemma wstys_app_inv : forall a b S S2, wstys S (a ++ b) S2 -> exists S1, wstys S a S1 /\ wstys S1 b S2.
Proof. induction a as [|s a IH]; intros b S S2 H; cbn [app] in H; [exists S; split; [constructor|exact H]|]. inversion H as [|? S3 ? ? ? X Y]; subst. destruct (IH _ _ _ Y) as [S1 [A B]]. exists S1. split; [econstructor; eassumption|exact B]. Qed.
Theorem wcompile_violates : forall K p z vs, wide -> wwell_typed p -> nonneg_ids p -> forallb safe_write (wbody p) = true -> wcompile p = Some z -> Forall2 has_type vs (map pty (wargs p)) -> wfails_k K p vs -> violates_prog K z (encode_values vs).
Proof.
  intros K p z vs W Wt Nn Sw H Tv [pre [s [post [lg [rho [Eb [Ex Fa]]]]]]]. destruct (wsetup p z Wt Nn H) as [S' [n1 [l [n2 [b [e' [zl [zb [sr [zs [T1 [T2 [NS [N1 [N2 [E1 [E2 [F1 [F2 [F3 ->]]]]]]]]]]]]]]]]]]]]. pose proof Wt as [G [_ Nd]].
  pose proof (body_runs _ _ _ T1 NS N1 Sw _ _ _ E1) as [_ [_ [C1 _]]].
  assert (Fr : fresh (tparams (wargs p)) (wdefss l)).
  { apply (once_fresh _ _ (wdefss (wbody p)) n1); try assumption.
    - apply nodup_app_inv in Nd as [_ [Nd _]]. apply nodup_app_inv in Nd as [Nd _]. exact Nd.
    - intros y I. destruct (tparams (wargs p) y) as [t|] eqn:E; [|reflexivity]. exfalso. apply nodup_app_inv in Nd as [_ [_ Nd]]. apply (Nd y); [|apply in_or_app; left; exact I]. destruct (tparams_dom (wargs p) (fun _ => None) y) as [X|X]; [unfold tparams in E; rewrite E; discriminate|contradiction X; reflexivity|exact X]. }
  destruct (bind_args W (wargs p) vs _ _ _ G Tv rel_nil) as [zr [B R]]. change (fold_left _ (wargs p) (fun _ => None)) with (tparams (wargs p)) in R. exists zr. cbn [zargs zbody]. split; [exact B|]. apply viol_app_l, viol_app_l.
  rewrite Eb in T1, N1, Sw, E1. apply wstys_app_inv in T1 as [Sp [Ta Tb]]. inversion Tb as [|? Sq ? ? ? Ts _]; subst. rewrite forallb_app in Sw. apply andb_prop in Sw as [Sw1 Sw2]. cbn [forallb] in Sw2. apply andb_prop in Sw2 as [Sw2 _]. rewrite wdefss_app, wdefss_cons in N1. apply nnl_app in N1 as [Na N1]. apply nnl_app in N1 as [Ns _].
  rewrite flat_map_app, redef_ws_app in E1. cbn [flat_map] in E1. destruct (redef_ws 0 (flat_map remove_write pre)) as [m1 l1] eqn:H1. rewrite redef_ws_app in E1. destruct (redef_ws m1 (remove_write s)) as [m2 l2] eqn:H2. destruct (redef_ws m2 (flat_map remove_write post)) as [m3 l3] eqn:H3. injection E1 as <- <-.
  apply wflat_app in F1 as [z1 [z23 [F1 [F23 ->]]]]. apply wflat_app in F23 as [z2 [z3 [Fs [_ ->]]]]. rewrite !wdefss_app in Fr. destruct (fresh_app _ _ _ Fr) as [Fr1 _].
  destruct (body_runs _ _ _ Ta NS Na Sw1 _ _ _ H1) as [_ [NSp [_ R1]]]. destruct (R1 _ z1 (xtn_refl _) (cfree_nn _ 0 NS) Fr1 F1) as [S2 [X2 [K2 [D2 Q2]]]]. pose proof (fresh_next _ _ _ _ Fr D2) as Fr2. destruct (fresh_app _ _ _ Fr2) as [Fr3 _].
  destruct (Q2 _ _ _ _ _ [] [] Ex (same_refl _) R) as [zr1 [rho1 [g1 [P1 [_ [P3 P4]]]]]]. apply (viol_app_r _ _ _ _ _ P1). apply viol_app_l. exact (fails_violates _ _ _ _ Ts NSp Ns Sw2 _ _ _ H2 S2 z2 X2 K2 Fr3 Fs rho rho1 zr1 _ _ Fa P3 P4).
Qed.
End WritesEnd.
