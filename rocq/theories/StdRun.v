(** Running functions of the source language: rules used in PropStd.v to execute the functions of the standard library symbolically. *)
From Coq Require Import String Ascii.
From Coq Require Import ZArith NArith List Bool Lia.
From Verif Require Import PField Concrete Interp Bits Flat Zir Codegen Str Abi Typed Writes Src SrcTy Std.
Import ListNotations.
Open Scope list_scope.
Open Scope Z_scope.

Section Run.
Context {PF : PrimeField}.
Variable call : caller.
Definition ev (rho : renv) (e : sexp) (v : value_) : Prop := seval call rho e = Ok ([], v).
Definition evs (rho : renv) (es : list sexp) (vs : list value_) : Prop := sevals call rho es = Ok ([], vs).
Definition ex (rho : renv) (s : sstmt) (rho' : renv) : Prop := sexec call rho s = Ok ([], rho').
Definition exs (rho : renv) (ss : list sstmt) (rho' : renv) : Prop := sexecs call rho ss = Ok ([], rho').
Lemma evs_nil : forall rho, evs rho [] []. Proof. reflexivity. Qed.
Lemma evs_cons : forall rho e es v vs, ev rho e v -> evs rho es vs -> evs rho (e :: es) (v :: vs).
Proof. intros rho e es v vs H1 H2. unfold ev, evs, sevals in *. cbn [eval_list]. rewrite H1. cbn [obnd]. rewrite H2. reflexivity. Qed.
Lemma ev_id : forall rho t x v, rho x = Some v -> ev rho (SId t x) v.
Proof. intros rho t x v H. unfold ev. cbn [seval]. rewrite H. reflexivity. Qed.
Lemma ev_op : forall rho op es vs v, evs rho es vs -> sem_op op (map is_slit es) vs = Ok v -> ev rho (SOp op es) v.
Proof. intros rho op es vs v H1 H2. unfold ev, evs, sevals in *. cbn [seval]. rewrite H1. cbn [obnd fst snd]. rewrite H2. reflexivity. Qed.
Lemma ev_par : forall rho k e es v vs ns op u, ev rho e v -> evs rho es vs -> nums vs = Some ns -> par_op k ns = Some op -> sem_op op [] [v] = Ok u -> ev rho (SPar k e es) u.
Proof. intros rho k e es v vs ns op u H1 H2 H3 H4 H5. unfold ev, evs, sevals in *. cbn [seval]. rewrite H1. cbn [obnd]. rewrite H2. cbn [obnd fst snd]. rewrite H3. cbn [of_opt obnd]. rewrite H4. cbn [of_opt obnd]. rewrite H5. reflexivity. Qed.
Lemma if_vf : forall (b : bool) (x y : F), (if b then VField x else VField y) = VField (if b then x else y). Proof. intros [|]; reflexivity. Qed.
Lemma if_vb : forall b x y : bool, (if b then @VBool PF x else VBool y) = VBool (if b then x else y). Proof. intros [|]; reflexivity. Qed.
Lemma ev_cond : forall rho c x y b vx vy v, ev rho c (VBool b) -> ev rho x vx -> ev rho y vy -> (if b then vx else vy) = v -> ev rho (SCond c x y) v.
Proof. intros rho c x y b vx vy v H1 H2 H3 <-. unfold ev in *. cbn [seval]. rewrite H1. cbn [obnd]. rewrite H2. cbn [obnd]. rewrite H3. reflexivity. Qed.
Lemma ev_call : forall rho ts t f gens args gvs vs ns v, evs rho gens gvs -> evs rho args vs -> nums gvs = Some ns -> call f ns ts t vs = Ok ([], v) -> ev rho (SCall ts t f gens args) v.
Proof. intros rho ts t f gens args gvs vs ns v H1 H2 H3 H4. unfold ev, evs, sevals in *. cbn [seval]. rewrite H1. cbn [obnd]. rewrite H2. cbn [obnd fst snd]. rewrite H3. cbn [of_opt obnd]. rewrite H4. reflexivity. Qed.
Lemma ev_sel : forall rho ty a i l w k v, ev rho a (VArray l) -> ev rho i (VUint w k) -> 0 <= k -> nth_error l (Z.to_nat k) = Some v -> ev rho (SOp (OSel ty) [a; i]) v.
Proof. intros rho ty a i l w k v H1 H2 H3 H4. eapply ev_op; [apply evs_cons; [exact H1|apply evs_cons; [exact H2|apply evs_nil]]|]. cbn [sem_op]. destruct (Z.leb_spec 0 k) as [_|K]; [|lia]. rewrite H4. reflexivity. Qed.
Lemma ex_def : forall rho x t e v, ev rho e v -> ex rho (SDef x t e) (rupd rho x v).
Proof. intros rho x t e v H. unfold ev, ex in *. cbn [sexec]. rewrite H. reflexivity. Qed.
Lemma ex_assert : forall rho e err, ev rho e (VBool true) -> ex rho (SAssert e err) rho.
Proof. intros rho e err H. unfold ev, ex in *. cbn [sexec]. rewrite H. reflexivity. Qed.
Lemma ex_set : forall rho x t i e v k w l u, ev rho e v -> ev rho i (VUint w k) -> rho x = Some (VArray l) -> put [PIdx k] v (VArray l) = Some u -> ex rho (SSet x t [SASel i] e) (rupd rho x u).
Proof. intros rho x t i e v k w l u H1 H2 H3 H4. unfold ev, ex in *. cbn [sexec ssteps]. rewrite H1. cbn [obnd]. rewrite H2. cbn [obnd fst snd]. rewrite H3. cbn [of_opt obnd fst snd app]. rewrite H4. reflexivity. Qed.
Lemma exs_nil : forall rho, exs rho [] rho. Proof. reflexivity. Qed.
Lemma exs_cons : forall rho s ss r1 r2, ex rho s r1 -> exs r1 ss r2 -> exs rho (s :: ss) r2.
Proof. intros rho s ss r1 r2 H1 H2. unfold ex, exs, sexecs in *. cbn [exec_list]. rewrite H1. cbn [obnd snd]. rewrite H2. reflexivity. Qed.
Lemma zrange_S : forall i j, i < j -> zrange i j = i :: zrange (i + 1) j.
Proof.
  intros i j H. unfold zrange. replace (Z.to_nat (j - i)) with (S (Z.to_nat (j - (i + 1)))) by lia. cbn [seq map]. f_equal; [lia|]. rewrite <- seq_shift, map_map. apply map_ext. intros k. lia.
Qed.
Lemma zrange_nil : forall i j, j <= i -> zrange i j = [].
Proof. intros i j H. unfold zrange. replace (Z.to_nat (j - i)) with 0%nat by lia. reflexivity. Qed.
(** A loop keeps an invariant. *)
Lemma ex_for : forall (P : Z -> renv -> Prop) rho x a b body i j wa wb, ev rho a (VUint wa i) -> ev rho b (VUint wb j) -> i <= j -> P i rho ->
  (forall k r, i <= k < j -> P k r -> exists r', exs (rupd r x (VUint W32 k)) body r' /\ P (k + 1) r') ->
  exists r', ex rho (SFor x a b body) r' /\ P j r'.
Proof.
  intros P rho x a b body i j wa wb Ha Hb L H0 HS.
  assert (G : forall n i r, n = Z.to_nat (j - i) -> i <= j -> P i r -> (forall k r, i <= k < j -> P k r -> exists r', exs (rupd r x (VUint W32 k)) body r' /\ P (k + 1) r') ->
    exists r', exec_list (fun rho k => exec_list (sexec call) (rupd rho x (VUint W32 k)) body) r (zrange i j) = Ok ([], r') /\ P j r').
  { clear. induction n as [|n IH]; intros i r En L H0 HS.
    - assert (i = j) by lia. subst i. rewrite zrange_nil by lia. exists r. split; [reflexivity|exact H0].
    - rewrite zrange_S by lia. destruct (HS i r ltac:(lia) H0) as [r1 [E1 P1]]. destruct (IH (i + 1) r1 ltac:(lia) ltac:(lia) P1) as [r2 [E2 P2]]; [intros k r0 Hk; apply HS; lia|]. exists r2. split; [|exact P2].
      cbn [exec_list]. unfold exs, sexecs in E1. rewrite E1. cbn [obnd snd]. rewrite E2. reflexivity. }
  destruct (G _ i rho eq_refl L H0 HS) as [r' [E P']]. exists r'. split; [|exact P']. unfold ex, ev in *. cbn [sexec]. rewrite Ha. cbn [obnd]. rewrite Hb. cbn [obnd fst snd]. rewrite E. reflexivity.
Qed.
Lemma nums_u : forall w gs, nums (map (VUint w) gs) = Some gs.
Proof. intros w. induction gs as [|g gs IH]; [reflexivity|]. unfold nums in *. cbn [map opt_list]. rewrite IH. reflexivity. Qed.
End Run.
Section Call.
Context {PF : PrimeField}.
Lemma call_here : forall funs k f gs ts t gens params body ret vs r v, funs f gs ts t = Some (Here gens params body ret) -> length params = length vs -> length gens = length gs ->
  exs (scall funs k) (rbind (rbind (fun _ => None) (map (fun q => src (fst q)) params) vs) (map src gens) (map (VUint W32) gs)) body r -> ev (scall funs k) r ret v ->
  scall funs (S k) f gs ts t vs = Ok ([], v).
Proof. intros funs k f gs ts t gens params body ret vs r v H L1 L2 E1 E2. unfold exs, ev in *. cbn [scall]. rewrite H. rewrite L1, L2, !Nat.eqb_refl. cbn [andb]. rewrite E1. cbn [obnd snd]. rewrite E2. reflexivity. Qed.
Lemma call_flat : forall funs k f gs ts t em t' vs v, funs f gs ts t = Some (Flat em t') -> sem_emb em vs = Ok v -> scall funs (S k) f gs ts t vs = Ok ([], v).
Proof. intros funs k f gs ts t em t' vs v H E. cbn [scall]. rewrite H, E. reflexivity. Qed.
Lemma rupd_same : forall rho x v, rupd rho x v x = Some v.
Proof. intros rho x v. unfold rupd. rewrite rid_eqb_refl. reflexivity. Qed.
Lemma rupd_src : forall rho i j v, i <> j -> rupd rho (src i) v (src j) = rho (src j).
Proof. intros rho i j v H. unfold rupd. rewrite rid_eqb_ne; [reflexivity|]. intros E. injection E as E. congruence. Qed.
End Call.
(** look up a variable of the source *)
Ltac look := cbn [rbind map fst]; repeat first [rewrite rupd_same | rewrite rupd_src by discriminate]; first [reflexivity|eassumption].
(** execute, leaving the goals that need arithmetic *)
Ltac run1 := lazymatch goal with
  | |- evs _ _ [] _ => apply evs_nil
  | |- evs _ _ (_ :: _) _ => eapply evs_cons; [run1|run1]
  | |- ev _ _ (SId _ _) _ => eapply ev_id; look
  | |- ev _ _ (SOp (OSel _) [_; _]) _ => eapply ev_sel; [run1|run1| |]
  | |- ev _ _ (SOp _ _) _ => eapply ev_op; [run1|try reflexivity]
  | |- ev _ _ (SCond _ _ _) _ => eapply ev_cond; [run1|run1|run1|first [apply if_vf|apply if_vb|reflexivity]]
  | |- ev _ _ (SPar _ _ _) _ => eapply ev_par; [run1|run1|reflexivity| |]
  | |- _ => idtac
  end.
