(** Assertions survive constant propagation, panic extraction and dead code elimination. *)
From Coq Require Import ZArith NArith List Bool Lia.
From Verif Require Import PField Interp Bits Zir CgProg CgWf CgEnd UintOpt Panic DeadCode ZProp ZPropVars ZPropStmt.
Import ListNotations.
Open Scope Z_scope.

Section Enforce.
Context {PF : PrimeField}.
(** the built-in functions with a restricted domain *)
Definition may_reject (em : embed) : bool := match em with EUnpack _ | EFieldToBool => true | _ => false end.
(** A run violates an assertion: it is false, among the statements executed unconditionally and those of the branches whose condition
    holds. Everything before that point is defined. If [R] is set, a built-in function that rejects its arguments counts as well. *)
Inductive violates (R : bool) : outs_s -> zstmt -> Prop :=
| VEmb : forall o xs em es vs, R = true -> may_reject em = true -> sem_list (os_env o) es = Some vs -> sem_embed em vs = None -> violates R o (ZEmbed xs em es)
| VAssert : forall o e err, sem (os_env o) e = Some (VB false) -> violates R o (ZAssert e err)
| VThen : forall o c a b, sem (os_env o) c = Some (VB true) -> violatess R o a -> violates R o (ZIf c a b)
| VElse : forall o o1 c a b, sem (os_env o) c = Some (VB false) -> sem_stmts o a = Some o1 -> violatess R o1 b -> violates R o (ZIf c a b)
with violatess (R : bool) : outs_s -> list zstmt -> Prop :=
| VHere : forall o s r, violates R o s -> violatess R o (s :: r)
| VLater : forall o o1 s r, sem_stmt o s = Some o1 -> violatess R o1 r -> violatess R o (s :: r).
Scheme violates_mut := Minimality for violates Sort Prop
  with violatess_mut := Minimality for violatess Sort Prop.
Combined Scheme violates_ind2 from violates_mut, violatess_mut.

Lemma viol_app_l : forall R a b o, violatess R o a -> violatess R o (a ++ b).
Proof. intros R. induction a as [|s r IH]; intros b o V; inversion V; subst; cbn [app]; [apply VHere; assumption|eapply VLater; [eassumption|apply IH; assumption]]. Qed.
Lemma viol_app_r : forall R o o1 a b, sem_stmts o a = Some o1 -> violatess R o1 b -> violatess R o (a ++ b).
Proof.
  intros R o o1 a. revert o. induction a as [|s r IH]; intros o b E V; cbn [sem_stmts app] in *; [injection E as <-; exact V|]. destruct (sem_stmt o s) as [o2|] eqn:E2; [|discriminate E]. apply (VLater _ o o2); [exact E2|apply IH; assumption].
Qed.
Lemma violates_none : forall R, (forall o s, violates R o s -> sem_stmt o s = None) /\ (forall o l, violatess R o l -> sem_stmts o l = None).
Proof.
  intros R. apply violates_ind2.
  - intros o xs em es vs _ _ E1 E2. cbn [sem_stmt]. rewrite E1, E2. reflexivity.
  - intros o e err E. cbn [sem_stmt]. rewrite E. reflexivity.
  - intros o c a b E _ IH. rewrite sem_if, E, IH. reflexivity.
  - intros o o1 c a b E Ea _ IH. rewrite sem_if, E, Ea. exact IH.
  - intros o s r _ IH. cbn [sem_stmts]. rewrite IH. reflexivity.
  - intros o o1 s r E _ IH. cbn [sem_stmts]. rewrite E. exact IH.
Qed.

(** ** Constant propagation *)
Definition caught (R : bool) (P : cenv -> option (cenv * list zstmt)) (ds : list ident) (fr : list ident -> Prop) (ty : senv -> senv -> Prop) (o : outs_s) : Prop :=
  forall S S1 C Dom C' l', ty S S1 -> src S C Dom o -> fr Dom -> P C = Some (C', l') ->
  forall D o', tgt false C D o o' -> incl D Dom -> reads_oks D l' = true -> violatess R o' l'.
Lemma goods : forall l, Forall (ifok false) l -> good false (fun C => prop_stmts C l) (defss l) (fun Dom => anews Dom l) (fun S S1 => sty_stmts S l S1) (fun o => sem_stmts o l).
Proof. intros l H. apply good_stmts_of. rewrite Forall_forall in *. intros s I. apply good_stmt. auto. Qed.
Lemma noret_ifok : forall l, Forall noret l -> Forall (ifok false) l.
Proof. intros l H. rewrite Forall_forall in *. intros s I. specialize (H s I). destruct s; try exact Logic.I. split; [exact H|intros X; discriminate X]. Qed.
Lemma nr_go : forall l, (fix go (l : list zstmt) : Prop := match l with [] => True | s :: r => noret s /\ go r end) l <-> Forall noret l.
Proof. induction l as [|s r IH]; [split; auto|]. split; [intros [A B]; constructor; tauto|intros H; inversion H; tauto]. Qed.
Lemma violates_caught : forall R, (forall o s, violates R o s -> ifok false s -> caught R (fun C => prop_stmt C s) (defs s) (fun Dom => anew Dom s) (fun S S1 => sty_stmt S s S1) o) /\
  (forall o l, violatess R o l -> Forall (ifok false) l -> caught R (fun C => prop_stmts C l) (defss l) (fun Dom => anews Dom l) (fun S S1 => sty_stmts S l S1) o).
Proof.
  intros R. apply violates_ind2.
  - intros o xs em es vs HR Hm E1 E2 _ S S1 C Dom C' l' T Hsrc Hf P D o' Ht Hi Hr. pose proof Hsrc as [He [HC HD]]. pose proof (cst_ok_lit _ _ HC) as HL. inversion T; subst.
    assert (HC' : cst_ok (cdels C xs) (os_env o)) by (intros y c Hc; apply cdels_keep in Hc as [Hc _]; apply HC; exact Hc).
    destruct (keeps_list es (embed_in em) S (cdels C xs) (os_env o) vs) as [es' [M1 M2]]; auto. cbn [prop_stmt] in P. rewrite M1 in P. cbn [obind] in P. injection P as <- <-. cbn [reads_oks reads_ok] in Hr. rewrite andb_true_r in Hr. apply inclb_ok in Hr. destruct Ht as [G1 _].
    apply VHere, (VEmb true o' xs em es' vs); auto. rewrite (sem_list_agree es' (os_env o)) by (intros x Hx; apply G1; [apply Hr, Hx|exact (embed_none xs es es' C Dom x HL HD Hf M1 Hx)]). exact M2.
  - intros o e err E _ S S1 C Dom C' l' T Hsrc Hf P D o' Ht Hi Hr. pose proof Hsrc as [He [HC HD]]. pose proof (cst_ok_lit _ _ HC) as HL. inversion T; subst. destruct (prop_ok e S1 C (os_env o) PB_ (VB false)) as [e' [P1 P2]]; auto. cbn [prop_stmt] in P. rewrite P1 in P. cbn [obind] in P.
    destruct (isb (bconst e') true) eqn:B1; [apply isb_b in B1; subst e'; discriminate P2|]. destruct (isb (bconst e') false) eqn:B2; [discriminate P|]. injection P as <- <-. cbn [reads_oks reads_ok] in Hr. rewrite andb_true_r in Hr. apply inclb_ok in Hr. destruct Ht as [G1 _].
    apply VHere, VAssert. rewrite (sem_agree e' (os_env o)) by (intros y Hy; apply G1; [apply Hr, Hy|exact (prop_none _ _ _ _ HL P1 Hy)]). exact P2.
  - intros o c a b Ec _ IH Hok S S1 C Dom C' l' T Hsrc Hf P D o' Ht Hi Hr. pose proof Hsrc as [He [HC HD]]. pose proof (cst_ok_lit _ _ HC) as HL. inversion T as [| | | | |? ? ? ? S2 ? Tc Ta Tb]; subst.
    cbn [ifok noret] in Hok. rewrite !nr_go in Hok. destruct Hok as [[R1 R2] _]. specialize (IH (noret_ifok _ R1)). cbn [anew] in Hf. destruct Hf as [Hd Hn]. cbn [defs] in *. rewrite !defs_go in *. apply NoDup_app_inv in Hn as [Hn1 [Hn2 Hn3]].
    assert (Da : disj (defss a) Dom) by (intros x Hx; apply Hd, in_or_app; auto). assert (Fa : anews Dom a) by (apply once_anews; assumption). destruct (prop_ok c S C (os_env o) PB_ (VB true)) as [c' [P1 P2]]; auto. rewrite prop_if, P1 in P. cbn [obind] in P.
    destruct (isb (bconst c') true) eqn:B1; [exact (IH S S2 C Dom C' l' Ta Hsrc Fa P D o' Ht Hi Hr)|]. destruct (isb (bconst c') false) eqn:B2; [apply isb_b in B2; subst c'; discriminate P2|].
    destruct (prop_stmts C a) as [[C2 l2]|] eqn:E2; [|discriminate P]. cbn [obind fst snd] in P. destruct (prop_stmts C2 b) as [[C3 l3]|] eqn:E3; [|discriminate P]. cbn [obind fst snd] in P. injection P as <- <-.
    cbn [reads_oks] in Hr. rewrite andb_true_r, reads_if in Hr. apply andb_prop in Hr as [Hr Hr3]. apply andb_prop in Hr as [Hr1 Hr2]. apply VHere, VThen; [|exact (IH S S2 C Dom C2 l2 Ta Hsrc Fa E2 D o' Ht Hi Hr2)]. destruct Ht as [G1 _]. apply inclb_ok in Hr1. rewrite (sem_agree c' (os_env o)) by (intros y Hy; apply G1; [apply Hr1, Hy|exact (prop_none _ _ _ _ HL P1 Hy)]). exact P2.
  - intros o o1 c a b Ec Ea _ IH Hok S S1 C Dom C' l' T Hsrc Hf P D o' Ht Hi Hr. pose proof Hsrc as [He [HC HD]]. pose proof (cst_ok_lit _ _ HC) as HL. inversion T as [| | | | |? ? ? ? S2 ? Tc Ta Tb]; subst.
    cbn [ifok noret] in Hok. rewrite !nr_go in Hok. destruct Hok as [[R1 R2] _]. specialize (IH (noret_ifok _ R2)). cbn [anew] in Hf. destruct Hf as [Hd Hn]. cbn [defs] in *. rewrite !defs_go in *. apply NoDup_app_inv in Hn as [Hn1 [Hn2 Hn3]].
    assert (Da : disj (defss a) Dom) by (intros x Hx; apply Hd, in_or_app; auto). assert (Fa : anews Dom a) by (apply once_anews; assumption). assert (Db : disj (defss b) Dom) by (intros x Hx; apply Hd, in_or_app; auto).
    assert (Dba : disj (defss b) (defss a ++ Dom)). { intros x Hx Hy. apply in_app_or in Hy as [Hy|Hy]; [exact (Hn3 x Hy Hx)|exact (Db x Hx Hy)]. }
    assert (Fb : anews (defss a ++ Dom) b) by (apply once_anews; assumption).
    destruct (prop_ok c S C (os_env o) PB_ (VB false)) as [c' [P1 P2]]; auto. rewrite prop_if, P1 in P. cbn [obind] in P.
    destruct (isb (bconst c') true) eqn:B1; [apply isb_b in B1; subst c'; discriminate P2|]. destruct (isb (bconst c') false) eqn:B2.
    + destruct (skip_ok false a S S2 C Dom o o1) as [K1 K2]; auto; [intros X; discriminate X|]. apply (IH S2 S1 C (defss a ++ Dom) C' l' Tb K1 Fb P D o'); auto. apply incl_appr. exact Hi.
    + destruct (goods a (noret_ifok _ R1) S S2 C Dom o o1 Ta Hsrc Fa Ea) as [C2 [l2 [A1 [A2 [A3 A4]]]]]. rewrite A1 in P. cbn [obind fst snd] in P. destruct (prop_stmts C2 b) as [[C3 l3]|] eqn:E3; [|discriminate P]. cbn [obind fst snd] in P. injection P as <- <-.
      cbn [reads_oks] in Hr. rewrite andb_true_r, reads_if in Hr. apply andb_prop in Hr as [Hr Hr3]. apply andb_prop in Hr as [Hr1 Hr2]. destruct (A4 D o' Ht Hi Hr2) as [o2' [F1 F2]]. apply VHere, (VElse _ o' o2'); [|exact F1|].
      { destruct Ht as [G1 _]. apply inclb_ok in Hr1. rewrite (sem_agree c' (os_env o)) by (intros y Hy; apply G1; [apply Hr1, Hy|exact (prop_none _ _ _ _ HL P1 Hy)]). exact P2. }
      refine (IH S2 S1 C2 (defss a ++ Dom) C3 l3 Tb A2 Fb E3 (defss l2 ++ D) o2' F2 _ Hr3). apply incl_app; [apply incl_appl; auto|apply incl_appr; auto].
  - intros o s r _ IH Hok S S1 C Dom C' l' T Hsrc Hf P D o' Ht Hi Hr. inversion Hok as [|? ? Ok1 Ok2]; subst. inversion T as [|? ? ? S2 ? T1 T2]; subst. cbn [defss flat_map] in *. fold (defss r) in *. cbn [anews] in Hf. destruct Hf as [Hf1 Hf2].
    cbn [prop_stmts] in P. destruct (prop_stmt C s) as [[C2 l2]|] eqn:E2; [|discriminate P]. cbn [obind fst snd] in P. destruct (prop_stmts C2 r) as [[C3 l3]|]; [|discriminate P]. cbn [obind fst snd] in P. injection P as <- <-.
    apply reads_oks_app in Hr as [Hr1 Hr2]. apply viol_app_l. exact (IH Ok1 S S2 C Dom C2 l2 T1 Hsrc Hf1 E2 D o' Ht Hi Hr1).
  - intros o o1 s r Es _ IH Hok S S1 C Dom C' l' T Hsrc Hf P D o' Ht Hi Hr. inversion Hok as [|? ? Ok1 Ok2]; subst. inversion T as [|? ? ? S2 ? T1 T2]; subst. cbn [defss flat_map] in *. fold (defss r) in *. cbn [anews] in Hf. destruct Hf as [Hf1 Hf2].
    destruct (good_stmt false s Ok1 S S2 C Dom o o1 T1 Hsrc Hf1 Es) as [C2 [l2 [A1 [A2 [A3 A4]]]]]. cbn [prop_stmts] in P. rewrite A1 in P. cbn [obind fst snd] in P.
    destruct (prop_stmts C2 r) as [[C3 l3]|] eqn:E3; [|discriminate P]. cbn [obind fst snd] in P. injection P as <- <-. apply reads_oks_app in Hr as [Hr1 Hr2]. destruct (A4 D o' Ht Hi Hr1) as [o2' [F1 F2]]. apply (viol_app_r R _ o2' _ _ F1).
    refine (IH Ok2 S2 S1 C2 (defs s ++ Dom) C3 l3 T2 A2 Hf2 E3 (defss l2 ++ D) o2' F2 _ Hr2).
    apply incl_app; [apply incl_appl; auto|apply incl_appr; auto].
Qed.
Definition violates_prog (R : bool) (p : zprog) (inputs : list F) : Prop := exists rho, bind_params (fun _ => None) (zargs p) inputs = Some rho /\ violatess R (mkOuts rho [] []) (zbody p).
Theorem propagate_violates : forall R p p1 inputs, sty_prog p -> ends_return p -> fresh_prog p -> propagate p = Some p1 -> closed_prog p1 = true -> violates_prog R p inputs -> violates_prog R p1 inputs.
Proof.
  intros R p p1 inputs [_ [[S1 T] _]] He Hs Hp Hc [rho [B V]].  unfold propagate in Hp. destruct (prop_stmts (fun _ => None) (zbody p)) as [[C' l']|] eqn:E; [|discriminate Hp]. cbn [obind snd] in Hp. injection Hp as <-. unfold closed_prog in Hc. cbn [zargs zbody] in Hc.
  exists rho. cbn [zargs zbody]. split; [exact B|].
  refine (proj2 (violates_caught R) _ _ V (ends_ifok p false He _) (sty_params (zargs p)) S1 (fun _ => None) (map zpid (zargs p)) C' l' T _ Hs E (map zpid (zargs p)) (mkOuts rho [] []) _ (incl_refl _) Hc).
  - intros X; discriminate X.
  - split; [|split; [intros x c H; discriminate H|intros x c H; discriminate H]]. eapply bind_params_tr; [|exact B]. intros x t v H. discriminate H.
  - split; [auto|]. split; [auto|constructor].
Qed.

(** ** Panic extraction *)
Lemma viol_guard : forall R o g l, sem_stmts o g = Some o -> violatess R o l -> violatess R o (g ++ l).
Proof. intros R o g l E V. apply (viol_app_r R o o g l E V). Qed.
Lemma px_viol : forall R, (3 <= required_bits)%nat -> (forall o s, violates R o s -> no_pow0_stmt s -> violatess R o (px s)) /\ (forall o l, violatess R o l -> Forall no_pow0_stmt l -> violatess R o (pxs l)).
Proof.
  intros R Hr. apply violates_ind2.
  - intros o xs em es vs HR Hm E1 E2 N. cbn [px]. apply viol_guard; [apply pes_ok; [exact Hr|exact N|congruence]|]. apply VHere, (VEmb R o xs em es vs); assumption.
  - intros o e err E N. cbn [px]. apply viol_guard; [apply pe_ok; [exact Hr|exact N|congruence]|]. apply VHere, VAssert. exact E.
  - intros o c a b E _ IH N. cbn [no_pow0_stmt] in N. rewrite !no_pow0_stmt_go in N. destruct N as [N0 [N1 N2]]. cbn [px]. apply viol_guard; [apply pe_ok; [exact Hr|exact N0|congruence]|]. apply VHere, VThen; [exact E|]. exact (IH N1).
  - intros o o1 c a b E Ea _ IH N. cbn [no_pow0_stmt] in N. rewrite !no_pow0_stmt_go in N. destruct N as [N0 [N1 N2]]. cbn [px]. apply viol_guard; [apply pe_ok; [exact Hr|exact N0|congruence]|].
    apply VHere, (VElse _ o o1); [exact E| |exact (IH N2)]. rewrite px_go, pxs_sem by assumption. exact Ea.
  - intros o s r _ IH N. cbn [pxs flat_map]. apply viol_app_l, IH. exact (Forall_inv N).
  - intros o o1 s r E _ IH N. cbn [pxs flat_map]. apply (viol_app_r R o o1); [rewrite px_sem; [exact E|exact Hr|exact (Forall_inv N)]|]. exact (IH (Forall_inv_tail N)).
Qed.

(** ** Elimination of dead code *)
(** the number of built-in functions with a restricted domain *)
Fixpoint checks_in (s : zstmt) : nat :=
  match s with
  | ZEmbed _ em _ => if may_reject em then 1 else 0
  | ZIf _ a b => (fix go (l : list zstmt) : nat := match l with [] => 0 | s :: r => checks_in s + go r end) a + (fix go (l : list zstmt) : nat := match l with [] => 0 | s :: r => checks_in s + go r end) b
  | _ => 0
  end%nat.
Fixpoint checks_of (l : list zstmt) : nat := match l with [] => 0 | s :: r => checks_in s + checks_of r end%nat.
Lemma checks_if : forall c a b, checks_in (ZIf c a b) = (checks_of a + checks_of b)%nat.
Proof. reflexivity. Qed.
Lemma checks_app : forall a b, checks_of (a ++ b) = (checks_of a + checks_of b)%nat.
Proof. induction a as [|s a IH]; intros b; [reflexivity|]. cbn [app checks_of]. rewrite IH. lia. Qed.
Lemma dces_checks_of : forall l, Forall (fun s => forall U, (checks_of (snd (dce U s)) <= checks_in s)%nat) l -> forall U, (checks_of (snd (dces U l)) <= checks_of l)%nat.
Proof.
  induction 1 as [|s r Hs _ IH]; intros U; cbn [dces]; [apply le_n|]. specialize (IH U). destruct (dces U r) as [U1 r'] eqn:Er. specialize (Hs U1). destruct (dce U1 s) as [U2 s'] eqn:Es. cbn [snd checks_of] in *. rewrite checks_app. lia.
Qed.
Lemma dce_checks : forall s U, (checks_of (snd (dce U s)) <= checks_in s)%nat.
Proof.
  intros s. induction s using zstmt_ind'; intros U; try (cbn; lia).
  - cbn [dce]. destruct (inb x U); cbn; lia.
  - rewrite dce_if, checks_if. pose proof (dces_checks_of a H (evars c ++ U)) as A. destruct (dces (evars c ++ U) a) as [U1 a'] eqn:Ea. pose proof (dces_checks_of b H0 U1) as B. destruct (dces U1 b) as [U2 b'] eqn:Eb. cbn [snd checks_of] in *. rewrite checks_if. lia.
  - cbn [dce]. destruct (existsb (fun x => inb x U) xs); cbn [snd checks_of]; lia.
Qed.
Lemma dces_checks : forall l U, (checks_of (snd (dces U l)) <= checks_of l)%nat.
Proof. intros l. apply dces_checks_of. apply Forall_forall. intros s _. apply dce_checks. Qed.
Definition dviol (R : bool) (n : nat) (D : list ident -> list ident * list zstmt) (o : outs_s) : Prop :=
  forall U U' l' (A : ident -> Prop) o', D U = (U', l') -> (R = true -> checks_of l' = n) -> (forall x, In x (usess l') -> A x) -> DeadCode.agree A o o' -> violatess R o' l'.
Lemma dce_viol : forall R, (forall o s, violates R o s -> scoped s -> dviol R (checks_in s) (fun U => dce U s) o) /\ (forall o l, violatess R o l -> Forall scoped l -> dviol R (checks_of l) (fun U => dces U l) o).
Proof.
  intros R. assert (DS : forall l, Forall scoped l -> dsem (fun U => dces U l) (defss l) (fun o => sem_stmts o l)) by (intros l H; apply dces_sem_of; eapply Forall_impl; [|exact H]; apply dce_sem).
  apply violates_ind2.
  - intros o xs em es vs HR Hm E1 E2 _ U U' l' A o' D HK HA G. cbn [dce] in D. specialize (HK HR). cbn [checks_in] in HK. rewrite Hm in HK. destruct (existsb (fun x => inb x U) xs); injection D as <- <-; [|discriminate HK].
    cbn [usess flat_map uses] in HA. rewrite app_nil_r in HA. destruct G as [G1 _]. apply VHere, (VEmb R o' xs em es vs); auto. rewrite (sem_list_agree es (os_env o)) by auto. exact E1.
  - intros o e err E _ U U' l' A o' D HK HA G. cbn [dce] in D. injection D as <- <-. cbn [usess flat_map uses] in HA. rewrite app_nil_r in HA. destruct G as [G1 _]. apply VHere, VAssert. rewrite (sem_agree e (os_env o)) by auto. exact E.
  - intros o c a b E _ IH Hsc U U' l' A o' D HK HA G. rewrite dce_if in D. destruct (dces (evars c ++ U) a) as [U1 a'] eqn:Ea. destruct (dces U1 b) as [U2 b'] eqn:Eb. injection D as <- <-. assert (Ka : R = true -> checks_of a' = checks_of a /\ checks_of b' = checks_of b). { intros HR. specialize (HK HR). pose proof (dces_checks a (evars c ++ U)) as Q1. pose proof (dces_checks b U1) as Q2. rewrite Ea in Q1. rewrite Eb in Q2. cbn [snd] in Q1, Q2. cbn [checks_of] in HK. rewrite !checks_if in HK. lia. } cbn [scoped] in Hsc. rewrite !scoped_go in Hsc. destruct Hsc as [S1 [S2 S3]].
    cbn [usess flat_map uses] in HA. rewrite app_nil_r, !uses_go in HA. pose proof G as [G1 _]. apply VHere, VThen; [rewrite (sem_agree c (os_env o)) by (intros; apply G1, HA, in_or_app; auto); exact E|].
    apply (IH S2 _ _ _ A o' Ea); [intros HR; apply Ka, HR| |exact G]. intros x X. apply HA, in_or_app. right. apply in_or_app. auto.
  - intros o o1 c a b E Eo _ IH Hsc U U' l' A o' D HK HA G. rewrite dce_if in D. destruct (dces (evars c ++ U) a) as [U1 a'] eqn:Ea. destruct (dces U1 b) as [U2 b'] eqn:Eb. injection D as <- <-. assert (Ka : R = true -> checks_of a' = checks_of a /\ checks_of b' = checks_of b). { intros HR. specialize (HK HR). pose proof (dces_checks a (evars c ++ U)) as Q1. pose proof (dces_checks b U1) as Q2. rewrite Ea in Q1. rewrite Eb in Q2. cbn [snd] in Q1, Q2. cbn [checks_of] in HK. rewrite !checks_if in HK. lia. } cbn [scoped] in Hsc. rewrite !scoped_go in Hsc. destruct Hsc as [S1 [S2 S3]].
    cbn [usess flat_map uses] in HA. rewrite app_nil_r, !uses_go in HA. pose proof G as [G1 _]. destruct (dces_mono b _ _ _ Eb) as [_ [_ Mb]].
    destruct (DS a S2 _ _ _ A (fun _ => False) o o' o1 Ea) as [o2' [B1 B2]]; [intros x []|intros x []| |exact G|exact Eo|]. { intros x X. apply HA, in_or_app. right. apply in_or_app. auto. }
    apply VHere, (VElse _ o' o2'); [rewrite (sem_agree c (os_env o)) by (intros; apply G1, HA, in_or_app; auto); exact E|exact B1|].
    apply (IH S3 _ _ _ (fun x => A x /\ ~ In x (defss a) \/ False) o2' Eb); [intros HR; apply Ka, HR| |exact B2]. intros x X. left. split; [apply HA, in_or_app; right; apply in_or_app; auto|]. intros Y. exact (S1 x Y (Mb x X)).
  - intros o s r _ IH Hsc U U' l' A o' D HK HA G. cbn [dces] in D. destruct (dces U r) as [U1 r'] eqn:Er. destruct (dce U1 s) as [U2 s'] eqn:Es. injection D as <- <-. assert (Ka : R = true -> checks_of s' = checks_in s /\ checks_of r' = checks_of r). { intros HR. specialize (HK HR). pose proof (dce_checks s U1) as Q1. pose proof (dces_checks r U) as Q2. rewrite Es in Q1. rewrite Er in Q2. cbn [snd] in Q1, Q2. rewrite checks_app in HK. cbn [checks_of] in HK. lia. } rewrite usess_app in HA. apply viol_app_l. apply (IH (Forall_inv Hsc) _ _ _ A o' Es); [intros HR; apply Ka, HR| |exact G]. intros x X. apply HA, in_or_app. auto.
  - intros o o1 s r E _ IH Hsc U U' l' A o' D HK HA G. cbn [dces] in D. destruct (dces U r) as [U1 r'] eqn:Er. destruct (dce U1 s) as [U2 s'] eqn:Es. injection D as <- <-. assert (Ka : R = true -> checks_of s' = checks_in s /\ checks_of r' = checks_of r). { intros HR. specialize (HK HR). pose proof (dce_checks s U1) as Q1. pose proof (dces_checks r U) as Q2. rewrite Es in Q1. rewrite Er in Q2. cbn [snd] in Q1, Q2. rewrite checks_app in HK. cbn [checks_of] in HK. lia. } rewrite usess_app in HA. destruct (dces_mono r _ _ _ Er) as [M1 [M2 _]].
    destruct (dce_sem s (Forall_inv Hsc) _ _ _ A (fun x => In x (usess r')) o o' o1 Es) as [o2' [B1 B2]]; [exact M2| | |exact G|exact E|]. { intros x X. apply HA, in_or_app. auto. } { intros x X. apply HA, in_or_app. auto. }
    apply (viol_app_r R o' o2' _ _ B1). refine (IH (Forall_inv_tail Hsc) _ _ _ _ o2' Er _ _ B2); [intros HR; apply Ka, HR|]. intros x X. right. exact X.
Qed.
(** elimination of dead code drops no built-in function with a restricted domain *)
Definition checks_kept (p : zprog) : bool := Nat.eqb (checks_of (zbody (eliminate (extract_panics p)))) (checks_of (zbody (extract_panics p))).
Theorem analyse_violates : forall R p inputs, (3 <= required_bits)%nat -> no_pow0_prog p -> scoped_prog p -> (R = true -> checks_kept p = true) -> violates_prog R p inputs -> sem_prog (eliminate (extract_panics p)) inputs = None.
Proof.
  intros R p inputs Hr N Hsc HK [rho [B V]]. unfold checks_kept, eliminate, extract_panics in HK. cbn [zbody] in HK. unfold sem_prog, eliminate, extract_panics. cbn [zargs zbody]. rewrite B. apply (proj2 (px_viol R Hr)) in V; [|exact N].
  pose proof (extract_scoped p Hsc) as Hs2. unfold scoped_prog, extract_panics in Hs2. cbn [zbody] in Hs2. destruct (dces [] (pxs (zbody p))) as [U' l'] eqn:E. cbn [snd] in *.
  rewrite (proj2 (violates_none R) (mkOuts rho [] []) l'); [reflexivity|]. apply (proj2 (dce_viol R) _ _ V Hs2 _ _ _ (fun _ => True) _ E); [intros HR; apply Nat.eqb_eq, HK, HR|auto|]. split; auto.
Qed.
End Enforce.
