(** Reduced statements: a source program in its environment and the reduced one in the environment of the current versions. *)
From Coq Require Import String Ascii.
From Coq Require Import ZArith NArith List Bool Lia.
From Verif Require Import PField Interp Bits Zir CgProg UintOpt Str Abi Typed Flatten FlattenOps FlattenSim FlattenRun Writes Redefine WritesVal WritesExp ZPropStmt Src SrcTy TProp TPropOk TPropArr TPropOps TPropExp TPropStmt TPropProg Reduce ReduceRen ReduceExp ReduceStmt ReduceSimple ReduceMain.
Import ListNotations.
Open Scope Z_scope.

Section ReduceBody.
Context {PF : PrimeField}.
Variable funs : ftable.
Hypothesis TO : table_ok funs.
Variable ptable : Prop.
Notation dyn := (dyn funs).
Notation GoodF := (GoodF funs ptable).
Notation GoodS := (GoodS funs ptable).

(** a variable is not assigned an expression in which one of its own slices occurs *)
Fixpoint srcok (s : sstmt) : bool :=
  match s with
  | SDef x _ e => forallb (fun y => negb (rid_eqb y x)) (slids e)
  | SFor _ _ _ body => forallb srcok body
  | _ => true
  end.
(** the variables of the source in scope are known by their latest version *)
Definition Rel (fr : nat) (V : versions) (C : consts) (G : rctx) (S : rctx) : Prop := forall y t, S y = Some t -> is_src y = true /\ cover C G (now fr V y) = Some t.
Definition VI (fr : nat) (V : versions) (C : consts) (G : rctx) : Prop := forall y t, rframe y = fr -> cover C G y = Some t -> exists k, V (snd (fst y)) = Some k /\ (snd y <= k)%nat.
Definition Vals (fr : nat) (V : versions) (C : consts) (rho : renv) (S : rctx) (rs : renv) : Prop := forall y t, S y = Some t -> ov C rho (now fr V y) = rs y.
Definition Sim (fr : nat) (V : versions) (L : nat) (C : consts) (G S : rctx) (V' : versions) (C' : consts) (S1 : rctx) (b : list sstmt) (ev : caller -> renv -> outcome (list entry * renv)) (ex : Prop) : Prop :=
  forall k rho rs, rok G rho -> Vals fr V C rho S rs ->
  (forall lg rs1, ev (scall funs k) rs = Ok (lg, rs1) -> exists lgb rho', sexecs nocall rho b = Ok (lgb, rho') /\ Vals fr V' C' rho' S1 rs1 /\ sublog lgb lg /\ (ex -> lgb = lg) /\ (forall y, (rframe y <= L)%nat -> rframe y <> fr -> rho' y = rho y)) /\
  (ex -> ev (scall funs k) rs = Failed -> sexecs nocall rho b = Failed).
Definition Post (fr : nat) (V : versions) (L : nat) (C : consts) (G S : rctx) (L' : nat) (V' : versions) (C' : consts) (S1 : rctx) (b : list sstmt) (ev : caller -> renv -> outcome (list entry * renv)) (ex : Prop) : Prop :=
  exists G', (L <= L')%nat /\ Inv L' C' G' /\ xstys G b G' /\ forallb snocalls b = true /\ (forall y, (rframe y <= L)%nat -> rframe y <> fr -> C' y = C y /\ G' y = G y) /\ Rel fr V' C' G' S1 /\ VI fr V' C' G' /\ Sim fr V L C G S V' C' S1 b ev ex.
Definition GoodT (fr : nat) (f : rstep) : Prop := forall L C V G S s S1 L' C' V' b, Inv L C G -> (fr <= L)%nat -> Rel fr V C G S -> VI fr V C G -> xsty S s S1 -> srcok s = true -> f L C V s = Some (L', C', V', b) ->
  Post fr V L C G S L' V' C' S1 b (fun call rs => sexec call rs s) (ptable /\ splain s = true).
Lemma now_frame : forall fr V y, rframe (now fr V y) = fr.
Proof. reflexivity. Qed.
Lemma now_now : forall fr V y, now fr V (now fr V y) = now fr V y.
Proof. reflexivity. Qed.
Lemma rel_sub : forall fr V C G S S', subctx S' S -> Rel fr V C G S -> Rel fr V C G S'.
Proof. intros fr V C G S S' Q R y t E. exact (R y t (Q y t E)). Qed.
Lemma vals_sub : forall fr V C rho S S' rs, subctx S' S -> Vals fr V C rho S rs -> Vals fr V C rho S' rs.
Proof. intros fr V C rho S S' rs Q R y t E. exact (R y t (Q y t E)). Qed.
Lemma post_sub : forall fr V L C G S L' V' C' S1 S2 b ev ex, subctx S2 S1 -> Post fr V L C G S L' V' C' S1 b ev ex -> Post fr V L C G S L' V' C' S2 b ev ex.
Proof.
  intros fr V L C G S L' V' C' S1 S2 b ev ex Q [G' [LL [I [X [N [K [R [Vi Sm]]]]]]]]. exists G'. split; [exact LL|]. split; [exact I|]. split; [exact X|]. split; [exact N|]. split; [exact K|]. split; [exact (rel_sub _ _ _ _ _ _ Q R)|]. split; [exact Vi|]. intros k rho rs Rk Vs. destruct (Sm k rho rs Rk Vs) as [P F]. split; [|exact F].
  intros lg rs1 E. destruct (P _ _ E) as [lgb [rho' [E' [V1 [A [B D]]]]]]. exists lgb, rho'. split; [exact E'|]. split; [exact (vals_sub _ _ _ _ _ _ _ Q V1)|]. auto.
Qed.
Lemma post_ext : forall fr V L C G S L' V' C' S1 b ev ev' (ex ex' : Prop), Post fr V L C G S L' V' C' S1 b ev ex -> (ex' -> ex) -> (forall call rs, ev' call rs = ev call rs) -> Post fr V L C G S L' V' C' S1 b ev' ex'.
Proof.
  intros fr V L C G S L' V' C' S1 b ev ev' ex ex' [G' [LL [I [X [N [K [R [Vi Sm]]]]]]]] Qx Q. exists G'. split; [exact LL|]. split; [exact I|]. split; [exact X|]. split; [exact N|]. split; [exact K|]. split; [exact R|]. split; [exact Vi|]. intros k rho rs Rk Vs. destruct (Sm k rho rs Rk Vs) as [P F]. split.
  - intros lg rs1 E. rewrite Q in E. destruct (P _ _ E) as [lgb [rho' [E' [V1 [A [B D]]]]]]. exists lgb, rho'. repeat split; auto.
  - intros Hx E. rewrite Q in E. exact (F (Qx Hx) E).
Qed.
Lemma post_nil : forall fr V L C G S ex, Inv L C G -> Rel fr V C G S -> VI fr V C G -> Post fr V L C G S L V C S [] (fun _ rs => Ok ([], rs)) ex.
Proof.
  intros fr V L C G S ex I R Vi. exists G. split; [lia|]. split; [exact I|]. split; [constructor|]. split; [reflexivity|]. split; [auto|]. split; [exact R|]. split; [exact Vi|]. intros k rho rs Rk Vs. split; [|intros _ E; discriminate E]. intros lg rs1 E. injection E as <- <-. exists [], rho. split; [reflexivity|]. split; [exact Vs|]. split; [constructor|]. split; auto.
Qed.
Lemma post_seq : forall fr V L C G S L1 V1 C1 S1 b1 ev1 ex1 L2 V2 C2 S2 b2 ev2 ex2 (ex : Prop),
  Post fr V L C G S L1 V1 C1 S1 b1 ev1 ex1 -> (forall G1, Inv L1 C1 G1 -> (L <= L1)%nat -> Rel fr V1 C1 G1 S1 -> VI fr V1 C1 G1 -> Post fr V1 L1 C1 G1 S1 L2 V2 C2 S2 b2 ev2 ex2) -> (ex -> ex1 /\ ex2) ->
  Post fr V L C G S L2 V2 C2 S2 (b1 ++ b2) (fun call rs => obnd (ev1 call rs) (fun a => obnd (ev2 call (snd a)) (fun b => Ok (fst a ++ fst b, snd b)))) ex.
Proof.
  intros fr V L C G S L1 V1 C1 S1 b1 ev1 ex1 L2 V2 C2 S2 b2 ev2 ex2 ex [G1 [LL [I1 [X1 [N1 [K1 [R1 [Vi1 Sm1]]]]]]]] H2 Hx. destruct (H2 G1 I1 LL R1 Vi1) as [G2 [LL2 [I2 [X2 [N2 [K2 [R2 [Vi2 Sm2]]]]]]]].
  exists G2. split; [lia|]. split; [exact I2|]. split; [exact (app_ty _ _ _ _ _ X1 X2)|]. split; [rewrite forallb_app, N1, N2; reflexivity|]. split; [intros y Y Ny; destruct (K1 y Y Ny); destruct (K2 y ltac:(lia) Ny); split; congruence|]. split; [exact R2|]. split; [exact Vi2|].
  intros k rho rs Rk Vs. destruct (Sm1 k rho rs Rk Vs) as [P F]. split.
  - intros lg rs2 E. apply ok_inv in E as [[la ra] [Ea E]]. apply ok_inv in E as [[lb rb] [Eb E]]. cbn [fst snd] in *. injection E as <- <-. destruct (P _ _ Ea) as [l1 [r1 [E1 [W1 [A1 [B1 D1]]]]]]. pose proof (proj2 (exec_typed nocall nocall_ok) _ _ _ X1 _ _ _ Rk E1) as Rk1. destruct (Sm2 k r1 ra Rk1 W1) as [P2 _]. destruct (P2 _ _ Eb) as [l2 [r2 [E2 [W2 [A2 [B2 D2]]]]]].
    exists (l1 ++ l2), r2. split; [exact (run_app _ _ _ _ _ _ _ _ E1 E2)|]. split; [exact W2|]. split; [apply sub_app; assumption|]. split; [intros H; destruct (Hx H) as [H1 H2']; rewrite (B1 H1), (B2 H2'); reflexivity|]. intros y Y Ny. rewrite D2 by (try exact Ny; lia). apply D1; assumption.
  - intros H E. destruct (Hx H) as [H1 H2']. destruct (ev1 (scall funs k) rs) as [[la ra]| |] eqn:Ea; [|exact (fail_left _ _ _ _ (F H1 eq_refl))|discriminate E]. destruct (P _ _ eq_refl) as [l1 [r1 [E1 [W1 _]]]]. pose proof (proj2 (exec_typed nocall nocall_ok) _ _ _ X1 _ _ _ Rk E1) as Rk1. destruct (Sm2 k r1 ra Rk1 W1) as [_ F2]. cbn [obnd fst snd] in E. apply (fail_right _ _ _ _ _ _ E1). apply (F2 H2'). destruct (ev2 (scall funs k) ra); [discriminate E|reflexivity|discriminate E].
Qed.
Lemma stmts_post : forall fr f, GoodT fr f -> forall ss L C V G S S1 L' C' V' b, Inv L C G -> (fr <= L)%nat -> Rel fr V C G S -> VI fr V C G -> xstys S ss S1 -> forallb srcok ss = true -> rstmts_ f L C V ss = Some (L', C', V', b) ->
  Post fr V L C G S L' V' C' S1 b (fun call rs => sexecs call rs ss) (ptable /\ forallb splain ss = true).
Proof.
  intros fr f GT. induction ss as [|s ss IH]; intros L C V G S S1 L' C' V' b I Fr R Vi X Sk E; cbn [rstmts_] in E.
  - injection E as <- <- <- <-. inversion X; subst. refine (post_ext _ _ _ _ _ _ _ _ _ _ _ _ _ _ _ (post_nil _ _ _ _ _ _ (ptable /\ True) I R Vi) _ _); [intros [H _]; auto|reflexivity].
  - destruct (f L C V s) as [[[[L1 C1] V1] b1]|] eqn:E1; [|discriminate E]. destruct (rstmts_ f L1 C1 V1 ss) as [[[[L2 C2] V2] b2]|] eqn:E2; [|discriminate E]. injection E as <- <- <- <-. inversion X as [|S0 Sa Sb s0 r Xs Xr]; subst. cbn [forallb] in Sk. apply andb_true_iff in Sk as [Sk1 Sk2].
    pose proof (GT _ _ _ _ _ _ _ _ _ _ _ I Fr R Vi Xs Sk1 E1) as P1.
    refine (post_ext _ _ _ _ _ _ _ _ _ _ _ _ _ _ _ (post_seq _ _ _ _ _ _ _ _ _ _ _ _ _ _ _ _ _ _ _ _ (ptable /\ forallb splain (s :: ss) = true) P1 (fun G1 I1 LL R1 Vi1 => IH _ _ _ _ _ _ _ _ _ _ I1 ltac:(lia) R1 Vi1 Xr Sk2 E2) _) (fun H => H) _).
    + intros [Hp Hx]. cbn [forallb] in Hx. apply andb_true_iff in Hx as [H1 H2]. auto.
    + intros call rs. apply u_ex_cons.
Qed.
Lemma iter_post : forall fr f, GoodT fr f -> forall x body S S1, newv S x U32 -> xstys (cput S x U32) body S1 -> forallb srcok body = true -> forall ks L C V G L' C' V' b, Forall (fun k => 0 <= k < 2 ^ 32) ks -> Inv L C G -> (fr <= L)%nat -> Rel fr V C G S -> VI fr V C G -> riter f x body L C V ks = Some (L', C', V', b) ->
  Post fr V L C G S L' V' C' S b (fun call rs => for_steps call x body rs ks) (ptable /\ forallb splain body = true).
Proof.
  intros fr f GT x body S S1 Nx Xb Sk. induction ks as [|k ks IH]; intros L C V G L' C' V' b Hk I Fr R Vi E; cbn [riter] in E.
  - injection E as <- <- <- <-. refine (post_ext _ _ _ _ _ _ _ _ _ _ _ _ _ _ _ (post_nil _ _ _ _ _ _ (ptable /\ True) I R Vi) _ _); [intros [H _]; auto|reflexivity].
  - destruct (rstmts_ f L C V (SDef x U32 (ul W32 k) :: body)) as [[[[L1 C1] V1] b1]|] eqn:E1; [|discriminate E]. destruct (riter f x body L1 C1 V1 ks) as [[[[L2 C2] V2] b2]|] eqn:E2; [|discriminate E]. injection E as <- <- <- <-. inversion Hk as [|? ? Hk1 Hk2]; subst.
    assert (Xs : xstys S (SDef x U32 (ul W32 k) :: body) S1). { econstructor; [|exact Xb]. constructor; [exact Logic.I|exact Nx|]. apply XOp with []; [constructor|]. constructor. exact Hk1. }
    pose proof (stmts_post fr f GT _ _ _ _ _ _ _ _ _ _ _ I Fr R Vi Xs Sk E1) as P1.
    assert (Sub : subctx S S1) by exact (sub_trans _ _ _ (sub_put _ _ _ Nx) (proj2 stys_sub _ _ _ Xb)). apply (post_sub _ _ _ _ _ _ _ _ _ _ S) in P1; [|exact Sub].
    refine (post_ext _ _ _ _ _ _ _ _ _ _ _ _ _ _ _ (post_seq _ _ _ _ _ _ _ _ _ _ _ _ _ _ _ _ _ _ _ _ (ptable /\ forallb splain body = true) P1 (fun G1 I1 LL R1 Vi1 => IH _ _ _ _ _ _ _ _ Hk2 I1 ltac:(lia) R1 Vi1 E2) _) (fun H => H) _).
    + intros [Hp Hx]. split; split; try assumption.
    + intros call rs. rewrite u_for_cons, u_ex_cons. cbn [sexec seval ul eval_list map sem_op obnd fst snd]. destruct (sexecs call (rupd rs x (VUint W32 k)) body) as [[]| |]; reflexivity.
Qed.
(** ** Statements other than loops *)
Lemma src_core : forall x y, is_src x = true -> is_src y = true -> snd (fst x) = snd (fst y) -> x = y.
Proof.
  intros [[f c] v] [[g d] w]. unfold is_src, rframe. cbn [fst snd]. rewrite !andb_true_iff, !Nat.eqb_eq. intros [[-> ->] _] [[-> ->] _] ->. reflexivity.
Qed.
Lemma bump_same : forall V c, bump V c c = Some (match V c with Some k => S k | None => O end).
Proof. intros V c. unfold bump. rewrite (proj2 (core_eqb_ok c c) eq_refl). reflexivity. Qed.
Lemma bump_other : forall V c d, d <> c -> bump V c d = V d.
Proof. intros V c d N. unfold bump. destruct (core_eqb d c) eqn:E; [apply core_eqb_ok in E; contradiction|reflexivity]. Qed.
Lemma now_other : forall fr V x y, is_src x = true -> is_src y = true -> y <> x -> now fr (bump V (snd (fst x))) y = now fr V y.
Proof. intros fr V x y Hx Hy N. unfold now, ver. rewrite bump_other; [reflexivity|]. intros E. apply N. exact (src_core _ _ Hy Hx E). Qed.
Lemma now_diff : forall fr V V' x y, is_src x = true -> is_src y = true -> y <> x -> now fr V y <> now fr V' x.
Proof. intros fr V V' x y Hx Hy N E. apply N. apply (src_core _ _ Hy Hx). unfold now in E. injection E as E _. exact E. Qed.
Lemma fresh : forall fr V C G x, VI fr V C G -> cover C G (now fr (bump V (snd (fst x))) x) = None.
Proof.
  intros fr V C G x Vi. destruct (cover C G (now fr (bump V (snd (fst x))) x)) as [t|] eqn:E; [|reflexivity]. exfalso. destruct (Vi _ _ (now_frame fr _ x) E) as [k [A B]]. unfold now, ver in A, B. cbn [fst snd] in *. rewrite bump_same, A in B. lia.
Qed.
Lemma ren_pids : forall f p, pids slids (map (ren_acc f) p) = map f (pids slids p).
Proof. intros f p. unfold pids. induction p as [|[i|m|k] p IH]; cbn [map flat_map ren_acc]; [reflexivity| | |]; rewrite IH, ?map_app, ?ren_slids; reflexivity. Qed.
Lemma ren_plains : forall f l, forallb plain (map (ren f) l) = forallb plain l.
Proof. intros f l. induction l as [|e l IH]; [reflexivity|]. cbn [map forallb]. rewrite ren_plain, IH. reflexivity. Qed.
Lemma ren_accs : forall f l, forallb acc_plain (map (ren_acc f) l) = forallb acc_plain l.
Proof. intros f l. induction l as [|[i|m|k] l IH]; cbn [map forallb ren_acc acc_plain]; [reflexivity| | |]; rewrite IH, ?ren_plain; reflexivity. Qed.
Lemma vals_eval : forall call fr V C rho S rs e t, Vals fr V C rho S rs -> xty S e t -> seval call (ov C rho) (ren (now fr V) e) = seval call rs e.
Proof. intros call fr V C rho S rs e t Vs X. rewrite ren_eval. apply (proj1 (agree _ _ _) _ _ _ X). exact Vs. Qed.
Lemma rel_ren : forall fr V C G S, Rel fr V C G S -> forall y u, S y = Some u -> cover C G (now fr V y) = Some u.
Proof. intros fr V C G S R y u E. exact (proj2 (R y u E)). Qed.
Lemma simple_post : forall fr V L C G S s V' s' S1 S1' L' C' b (ex ex' : Prop), (fr <= L)%nat -> simple_out funs L C G s' S1' L' C' b ex' -> (ex -> ex') -> (forall y, sdef s' = Some y -> rframe y = fr) ->
  (forall y t, S1 y = Some t -> is_src y = true /\ S1' (now fr V' y) = Some t) -> (forall y t, rframe y = fr -> S1' y = Some t -> exists k, V' (snd (fst y)) = Some k /\ (snd y <= k)%nat) ->
  (forall k rho rs, Vals fr V C rho S rs -> (forall lg rs1, sexec (scall funs k) rs s = Ok (lg, rs1) -> exists r', sexec (scall funs k) (ov C rho) s' = Ok (lg, r') /\ forall y t, S1 y = Some t -> r' (now fr V' y) = rs1 y) /\ (sexec (scall funs k) rs s = Failed -> sexec (scall funs k) (ov C rho) s' = Failed)) ->
  Post fr V L C G S L' V' C' S1 b (fun call rs => sexec call rs s) ex.
Proof.
  intros fr V L C G S s V' s' S1 S1' L' C' b ex ex' Fr [G' [LL [I [X [N [K [Cv D]]]]]]] Hx Sd R1 Vi1 H. exists G'. split; [exact LL|]. split; [exact I|]. split; [exact X|]. split; [exact N|].
  split; [intros y Y Ny; apply K; [exact Y|]; intros E; exact (Ny (Sd y E))|]. split; [intros y t E; destruct (R1 y t E) as [A B]; split; [exact A|rewrite (Cv (now fr V' y)); [exact B|exact Fr]]|]. split; [intros y t Y E; rewrite Cv in E by lia; exact (Vi1 y t Y E)|].
  intros k rho rs Rk Vs. destruct (H k rho rs Vs) as [P F]. destruct (D k rho Rk) as [P2 F2]. split.
  - intros lg rs1 E. destruct (P _ _ E) as [r' [E' Q]]. destruct (P2 _ _ E') as [lgb [rho' [E2 [W2 [S2 [T2 K2]]]]]]. exists lgb, rho'. split; [exact E2|]. split; [intros y t Y; rewrite W2 by exact Fr; exact (Q y t Y)|]. split; [exact S2|]. split; [intros h; exact (T2 (Hx h))|]. intros y Y Ny. apply K2; [exact Y|]. intros e. exact (Ny (Sd y e)).
  - intros h E. exact (F2 (Hx h) (F E)).
Qed.
Lemma simple_good : forall fr f, (forall V, GoodF fr V (f V)) -> (forall V, Idem (f V)) -> forall L C V G S s S1 V' s' L' C' b, Inv L C G -> (fr <= L)%nat -> Rel fr V C G S -> VI fr V C G -> xsty S s S1 -> srcok s = true -> ssa fr V s = Some (V', s') -> rsimple (f V') L C s' = Some (L', C', b) ->
  Post fr V L C G S L' V' C' S1 b (fun call rs => sexec call rs s) (ptable /\ splain s = true).
Proof.
  intros fr f GF Id L C V G S s S1 V' s' L' C' b I Fr R Vi X Sk Es E. pose proof (rel_ren _ _ _ _ _ R) as Rr. destruct s as [x t e|x t p e|e err|fmt args|x t em args|x a b0 body]; try discriminate Es; cbn [ssa] in Es.
  - destruct (is_src x) eqn:Hx; [|discriminate Es]. injection Es as <- <-. inversion X as [S0 x0 t0 e0 Gt Nv Xe| | | | |]; subst. set (W := bump V (snd (fst x))) in *. pose proof (fresh fr V C G x Vi) as Fs. fold W in Fs.
    assert (Xs : xsty (cover C G) (SDef (now fr W x) t (ren (now fr V) e)) (cput (cover C G) (now fr W x) t)) by (constructor; [exact Gt|left; exact Fs|exact (proj1 (ren_ty (cover C G) (now fr V)) _ _ _ Xe Rr)]).
    assert (St : stable fr W (slids (ren (now fr V) e))). { intros y Y. rewrite ren_slids in Y. apply in_map_iff in Y as [z [<- Z]]. cbn [srcok] in Sk. rewrite forallb_forall in Sk. specialize (Sk z Z). destruct (proj1 ty_ids _ _ _ Xe z (slids_eids e z Z)) as [u U]. destruct (R z u U) as [Hz _]. assert (Nz : z <> x) by (intros ->; rewrite rid_eqb_refl in Sk; discriminate Sk). change (now fr W (now fr V z)) with (now fr W z). exact (now_other fr V x z Hx Hz Nz). }
    assert (Cn : C (now fr W x) = None) by (unfold cover in Fs; destruct (C (now fr W x)) as [[]|]; [discriminate Fs|reflexivity]).
    pose proof (def_ok funs TO ptable fr W (f W) L C G (now fr W x) t _ _ L' C' b (GF W) I Fr Xs St Fr Cn E) as O.
    refine (simple_post fr V L C G S _ W _ _ _ L' C' b _ _ Fr O _ _ _ _ _).
    + rewrite ren_plain. intros h; exact h.
    + intros y [= <-]. reflexivity.
    + intros y u. unfold cput at 1. destruct (rid_eqb y x) eqn:Q.
      * apply rid_eqb_ok in Q as ->. intros [= <-]. split; [exact Hx|]. unfold cput. rewrite rid_eqb_refl. reflexivity.
      * intros Y. destruct (R y u Y) as [Hy Cy]. assert (Ny : y <> x) by (intros ->; rewrite rid_eqb_refl in Q; discriminate Q). split; [exact Hy|]. unfold cput. rewrite rid_eqb_ne by exact (now_diff fr W W x y Hx Hy Ny). unfold W. rewrite (now_other fr V x y Hx Hy Ny). exact Cy.
    + intros y u Fy. unfold cput. destruct (rid_eqb y (now fr W x)) eqn:Q.
      * apply rid_eqb_ok in Q as ->. intros _. unfold now. cbn [fst snd]. exists (ver W (snd (fst x))). split; [|lia]. unfold ver, W. rewrite bump_same. reflexivity.
      * intros Y. destruct (Vi y u Fy Y) as [k [A B]]. unfold W, bump. destruct (core_eqb (snd (fst y)) (snd (fst x))) eqn:Qc; [|exists k; auto]. apply core_eqb_ok in Qc. rewrite <- Qc, A. exists (Datatypes.S k). split; [reflexivity|lia].
    + intros k rho rs Vs. rewrite !u_sdef, (vals_eval _ _ _ _ _ _ _ _ _ Vs Xe). destruct (seval (scall funs k) rs e) as [[la v]| |]; cbn [obnd fst snd]; split; try (intros; discriminate); try reflexivity.
      intros lg rs1 [= <- <-]. exists (rupd (ov C rho) (now fr W x) v). split; [reflexivity|]. intros y u. unfold cput. destruct (rid_eqb y x) eqn:Q.
      * apply rid_eqb_ok in Q as ->. intros _. unfold rupd. rewrite !rid_eqb_refl. reflexivity.
      * intros Y. destruct (R y u Y) as [Hy Cy]. assert (Ny : y <> x) by (intros ->; rewrite rid_eqb_refl in Q; discriminate Q). unfold rupd. rewrite Q, rid_eqb_ne by exact (now_diff fr W W x y Hx Hy Ny). unfold W. rewrite (now_other fr V x y Hx Hy Ny). exact (Vs y u Y).
  - destruct (is_src x) eqn:Hx; [|discriminate Es]. injection Es as <- <-. inversion X as [|S0 x0 t0 p0 e0 te Sx Gt Xp Xe| | | |]; subst.
    assert (Xs : xsty (cover C G) (SSet (now fr V x) t (map (ren_acc (now fr V)) p) (ren (now fr V) e)) (cover C G)) by (apply XSet with te; [exact (Rr _ _ Sx)|exact Gt|exact (ren_path (cover C G) (now fr V) _ _ _ _ Xp Rr)|exact (proj1 (ren_ty (cover C G) (now fr V)) _ _ _ Xe Rr)]).
    assert (St : stable fr V (pids slids (map (ren_acc (now fr V)) p) ++ slids (ren (now fr V) e))). { intros y Y. rewrite ren_pids, ren_slids, <- map_app in Y. apply in_map_iff in Y as [z [<- Z]]. reflexivity. }
    pose proof (set_ok funs TO ptable fr V (f V) L C G (now fr V x) t _ _ _ L' C' b (GF V) (Id V) I Fr Fr Xs St E) as O.
    refine (simple_post fr V L C G S1 _ V _ _ _ L' C' b _ _ Fr O _ _ R Vi _).
    + rewrite ren_plain, ren_accs. intros h; exact h.
    + intros y [= <-]. reflexivity.
    + intros k rho rs Vs. assert (Ep : ssteps (scall funs k) (ov C rho) (map (ren_acc (now fr V)) p) = ssteps (scall funs k) rs p) by (rewrite ren_steps; apply (agree_path _ _ _ _ _ _ _ Xp); exact Vs). cbn [sexec]. rewrite (vals_eval _ _ _ _ _ _ _ _ _ Vs Xe), Ep. rewrite (Vs _ _ Sx).
      destruct (seval (scall funs k) rs e) as [[la v]| |]; cbn [obnd fst snd]; [|split; [intros; discriminate|reflexivity]|split; intros; discriminate]. destruct (ssteps (scall funs k) rs p) as [[lb ps]| |]; cbn [obnd fst snd]; [|split; [intros; discriminate|reflexivity]|split; intros; discriminate]. destruct (rs x) as [w|]; cbn [of_opt obnd]; [|split; intros; discriminate]. destruct (put ps v w) as [w'|]; cbn [of_put obnd]; [|split; [intros; discriminate|reflexivity]].
      split; [|intros; discriminate]. intros lg rs1 [= <- <-]. eexists. split; [reflexivity|]. intros y u Y. destruct (R y u Y) as [Hy _]. unfold rupd. destruct (rid_eqb y x) eqn:Q; [apply rid_eqb_ok in Q as ->; rewrite rid_eqb_refl; reflexivity|]. assert (Ny : y <> x) by (intros ->; rewrite rid_eqb_refl in Q; discriminate Q). rewrite rid_eqb_ne by exact (now_diff fr V V x y Hx Hy Ny). exact (Vs y u Y).
  - injection Es as <- <-. inversion X as [| |S0 e0 err0 Xe| | |]; subst.
    assert (Xs : xsty (cover C G) (SAssert (ren (now fr V) e) err) (cover C G)) by (constructor; exact (proj1 (ren_ty (cover C G) (now fr V)) _ _ _ Xe Rr)).
    assert (St : stable fr V (slids (ren (now fr V) e))). { intros y Y. rewrite ren_slids in Y. apply in_map_iff in Y as [z [<- Z]]. reflexivity. }
    pose proof (assert_ok funs TO ptable fr V (f V) L C G _ _ _ L' C' b (GF V) I Fr Xs St E) as O.
    refine (simple_post fr V L C G S1 _ V _ _ _ L' C' b _ _ Fr O _ _ R Vi _).
    + rewrite ren_plain. intros h; exact h.
    + intros y Y; discriminate Y.
    + intros k rho rs Vs. cbn [sexec]. rewrite (vals_eval _ _ _ _ _ _ _ _ _ Vs Xe). destruct (seval (scall funs k) rs e) as [[la v]| |]; cbn [obnd fst snd]; [|split; [intros; discriminate|reflexivity]|split; intros; discriminate]. destruct v as [| |[]| | |]; try (split; intros; (discriminate || reflexivity)). split; [|intros; discriminate]. intros lg rs1 [= <- <-]. eexists. split; [reflexivity|exact Vs].
  - injection Es as <- <-. inversion X as [| | |S0 fmt0 args0 ts Xe| |]; subst.
    assert (Xs : xsty (cover C G) (SLog fmt (map (ren (now fr V)) args)) (cover C G)) by (econstructor; exact (proj2 (ren_ty (cover C G) (now fr V)) _ _ _ Xe Rr)).
    assert (St : stable fr V (idlist slids (map (ren (now fr V)) args))). { intros y Y. rewrite (idlist_map slids (now fr V)) in Y by (apply Forall_forall; intros d _; apply ren_slids). apply in_map_iff in Y as [z [<- Z]]. reflexivity. }
    pose proof (log_ok funs TO ptable fr V (f V) L C G _ _ _ L' C' b (GF V) I Fr Xs St E) as O.
    refine (simple_post fr V L C G S1 _ V _ _ _ L' C' b _ _ Fr O _ _ R Vi _).
    + rewrite ren_plains. intros h; exact h.
    + intros y Y; discriminate Y.
    + intros k rho rs Vs. cbn [sexec]. assert (Ea : sevals (scall funs k) (ov C rho) (map (ren (now fr V)) args) = sevals (scall funs k) rs args) by (rewrite ren_evals; apply (proj2 (agree _ _ _) _ _ _ Xe); exact Vs). rewrite Ea. destruct (sevals (scall funs k) rs args) as [[la vs]| |]; cbn [obnd fst snd]; [|split; [intros; discriminate|reflexivity]|split; intros; discriminate]. split; [|intros; discriminate]. intros lg rs1 [= <- <-]. eexists. split; [reflexivity|exact Vs].
Qed.
End ReduceBody.
