(** Proofs about Flatten.v: whole programs. *)
From Coq Require Import String Ascii.
From Coq Require Import ZArith NArith List Bool Lia.
From Verif Require Import PField Interp Bits Zir CgProg CgWf CgEnd UintOpt Str Abi Typed Flatten FlattenOps FlattenSim FlattenRun FlattenTy FlattenShape Panic DeadCode ZProp ZPropStmt Enforce.
Import ListNotations.
Open Scope Z_scope.

Section End.
Context {PF : PrimeField}.

(** ** Arguments *)
Lemma req_wide : (131 <= required_bits)%nat -> wide.
Proof. intros H. unfold wide. change (2 ^ 64) with (pow2 64). apply pow2_small_lt_pp. lia. Qed.
Definition input_ok (l : lty) (u : val) : Prop := val_of_input (lptype l) (val_f u) = Some u.
Lemma flat_val_input : wide -> forall t v, has_type v t -> Forall2 input_ok (leaves t) (flat_val v).
Proof.
  intros W. induction t as [| |w|ty n IH|ts IH|ms IH|] using cty_ind'; intros v H; destruct v; try (cbn in H; contradiction).
  - constructor; [reflexivity|constructor].
  - constructor; [|constructor]. unfold input_ok. cbn [lptype val_of_input val_f]. destruct b; cbn [f_of_bool].
    + destruct (Feqb f1 f0) eqn:E; [apply Feqb_eq, (f_equal fval) in E; rewrite fval_f0, fval_f1 in E; discriminate E|]. rewrite Feqb_refl. reflexivity.
    + rewrite Feqb_refl. reflexivity.
  - cbn in H. destruct H as [<- H]. constructor; [|constructor]. unfold input_ok. cbn [lptype val_of_input val_f]. rewrite (width_fits _ _ W H), <- bits_uwn. destruct (Z.ltb_spec n (2 ^ bits_of w0)); [reflexivity|lia].
  - apply type_array in H as [L H]. subst n. cbn [leaves flat_val]. induction H as [|v l Hv Hl IHl]; [constructor|]. cbn [length repeat concat flat_map]. apply Forall2_app; [apply IH; exact Hv|exact IHl].
  - apply type_tuple in H. rewrite leaves_tuple. cbn [flat_val]. revert IH. induction H as [|v t l ts Hv Hl IHl]; intros IH; [constructor|]. inversion IH as [|? ? I1 I2]; subst. cbn [flat_map]. apply Forall2_app; [apply I1; exact Hv|apply IHl; exact I2].
  - apply type_struct in H. rewrite leaves_struct. cbn [flat_val]. revert IH. induction H as [|[k v] [k' t] l ms [_ Hv] Hl IHl]; intros IH; [constructor|]. inversion IH as [|? ? I1 I2]; subst. cbn [flat_map snd] in *. apply Forall2_app; [apply I1; exact Hv|apply IHl; exact I2].
Qed.
Lemma bind_app : forall a b x y rho rho1, bind_params rho a x = Some rho1 -> bind_params rho (a ++ b) (x ++ y) = bind_params rho1 b y.
Proof.
  induction a as [|p a IH]; intros b [|v x] y rho rho1 H; cbn [bind_params app] in *; try discriminate H; [injection H as <-; reflexivity|]. destruct (val_of_input (zptype p) v) as [u|]; [|discriminate H]. apply IH. exact H.
Qed.
Lemma bind_ids : forall (b : bool) (ids : list (sid * lty)) vs rho, Forall2 input_ok (map snd ids) vs ->
  bind_params rho (map (fun p => mkZParam (name (fst p)) (lptype (snd p)) b) ids) (map val_f vs) = Some (upds_s rho (map (fun p => name (fst p)) ids) vs).
Proof.
  intros b. induction ids as [|p ids IH]; intros vs rho H; cbn [map] in H; inversion H as [|? u ? us E R]; subst; [reflexivity|]. cbn [map bind_params zptype zpid upds_s]. unfold input_ok in E. rewrite E. apply IH. exact R.
Qed.
Lemma rel_upd : forall S rho zr x t v, rel S rho zr -> good_ty t -> has_type v t -> rel (cupd S x t) (tupd rho x v) (upds_s zr (map (fun p => name (fst p)) (flat_ids (SBase x) t)) (flat_val v)).
Proof.
  intros S rho zr x t v R G Tv. assert (Lv : length (flat_ids (SBase x) t) = length (flat_val v)) by (rewrite ids_length, (flat_val_length t v Tv); reflexivity).
  destruct (upds_ok (flat_ids (SBase x) t) (flat_val v) zr (f2_true _ _ _ _ Lv) (ids_nodup t _ G)) as [Q2 Q3]. set (zr' := upds_s zr _ _) in *.
  assert (O : forall s, base s <> x -> zr' (name s) = zr (name s)) by (intros s P; apply Q2; intros Q'; apply in_map_iff in Q' as [[s' lt] [<- Q']]; apply P; apply (ids_base _ _ _ _ Q')).
  intros y u Ey. unfold cupd in Ey. unfold tupd. destruct (y =? x) eqn:E; [apply Z.eqb_eq in E; subst y; injection Ey as <-; exists v; split; [reflexivity|]; split; [exact Tv|exact Q3]|].
  destruct (R y u Ey) as [w [W1 [W2 W3]]]. exists w. split; [exact W1|]. split; [exact W2|]. apply (holds_agree zr); [exact W3|]. intros s <-. apply O. intros P. rewrite P, Z.eqb_refl in E. discriminate E.
Qed.
Definition pty (q : Z * cty * bool) : cty := snd (fst q).
Definition pname (q : Z * cty * bool) : Z := fst (fst q).
Lemma bind_args : wide -> forall ps vs S rho zr, Forall (fun q => good_ty (pty q)) ps -> Forall2 has_type vs (map pty ps) -> rel S rho zr ->
  exists zr', bind_params zr (flat_map flat_param ps) (encode_values vs) = Some zr' /\ rel (fold_left (fun S p => cupd S (fst (fst p)) (snd (fst p))) ps S) (tbind rho ps vs) zr'.
Proof.
  intros W. induction ps as [|q ps IH]; intros vs S rho zr G H R; cbn [map] in H; inversion H as [|v ? vs' ? Tv Ts]; subst; [exists zr; split; [reflexivity|exact R]|]. cbn [flat_map encode_values]. unfold encode_values. cbn [flat_map]. unfold flat_param at 1.
  rewrite <- (flat_val_encode _ _ Tv). pose proof (bind_ids (snd q) (flat_ids (SBase (pname q)) (pty q)) (flat_val v) zr) as B. rewrite ids_leaves in B. specialize (B (flat_val_input W _ _ Tv)).
  rewrite (bind_app _ _ _ _ _ _ B). apply (IH vs' _ _ _ (Forall_inv_tail G) Ts). apply rel_upd; [exact R|exact (Forall_inv G)|exact Tv].
Qed.
(** every accepted vector of inputs is the encoding of values of the parameters' types *)
Lemma f2_app_split : forall A B (R : A -> B -> Prop) a b l, Forall2 R (a ++ b) l -> exists x y, l = x ++ y /\ Forall2 R a x /\ Forall2 R b y.
Proof. intros A B R a b l H. apply Forall2_app_inv_l in H as [x [y [X [Y E]]]]. exists x, y. auto. Qed.
Lemma input_values : forall t, good_ty t -> forall raw, Forall2 (fun l x => val_of_input (lptype l) x <> None) (leaves t) raw -> exists v, has_type v t /\ encode v = raw.
Proof.
  induction t as [| |w|ty n IH|ts IH|ms IH|] using cty_ind'; intros G raw H.
  - inversion H as [|? x ? ? _ R]; subst. inversion R; subst. exists (VField x). split; [exact I|reflexivity].
  - inversion H as [|? x ? ? X R]; subst. inversion R; subst. cbn [lptype val_of_input] in X. destruct (Feqb x f0) eqn:E0; [apply Feqb_eq in E0; exists (VBool false); split; [exact I|cbn [encode]; rewrite E0; reflexivity]|]. destruct (Feqb x f1) eqn:E1; [apply Feqb_eq in E1; exists (VBool true); split; [exact I|cbn [encode]; rewrite E1; reflexivity]|]. contradiction X; reflexivity.
  - inversion H as [|? x ? ? X R]; subst. inversion R; subst. cbn [lptype val_of_input] in X. destruct (Z.ltb_spec (fval x) (2 ^ Z.of_nat (uwn w))) as [L|L]; [|contradiction X; reflexivity]. exists (VUint w (fval x)). split; [|cbn [encode]; rewrite of_Z_fval; reflexivity]. cbn. split; [reflexivity|]. rewrite bits_uwn. pose proof (fval_range x). lia.
  - cbn [leaves] in H. assert (Q : exists l, length l = n /\ Forall (fun v => has_type v ty) l /\ flat_map encode l = raw).
    { revert raw H. induction n as [|n IHn]; intros raw H; cbn [repeat concat] in H; [inversion H; subst; exists []; split; [reflexivity|]; split; [constructor|reflexivity]|].
      apply f2_app_split in H as [x [y [-> [X Y]]]]. destruct (IH G x X) as [v [V1 V2]]. destruct (IHn G y Y) as [l [L1 [L2 L3]]]. exists (v :: l). split; [cbn; rewrite L1; reflexivity|]. split; [constructor; assumption|]. cbn [flat_map]. rewrite V2, L3. reflexivity. }
    destruct Q as [l [L1 [L2 L3]]]. exists (VArray l). split; [apply type_array; split; assumption|exact L3].
  - rewrite leaves_tuple in H. apply good_tuple in G. assert (Q : exists l, Forall2 has_type l ts /\ flat_map encode l = raw).
    { revert raw H. induction ts as [|t ts IHt]; intros raw H; cbn [flat_map] in H; [inversion H; subst; exists []; split; [constructor|reflexivity]|].
      apply f2_app_split in H as [x [y [-> [X Y]]]]. destruct (Forall_inv IH (Forall_inv G) x X) as [v [V1 V2]]. destruct (IHt (Forall_inv_tail IH) (Forall_inv_tail G) y Y) as [l [L2 L3]]. exists (v :: l). split; [constructor; assumption|]. cbn [flat_map]. rewrite V2, L3. reflexivity. }
    destruct Q as [l [L2 L3]]. exists (VTuple l). split; [apply type_tuple; assumption|exact L3].
  - rewrite leaves_struct in H. apply good_struct in G as [_ G]. assert (Q : exists l : list (string * value_), Forall2 (fun kv kt => fst kv = fst kt /\ has_type (snd kv) (snd kt)) l ms /\ flat_map (fun kv : string * value_ => encode (snd kv)) l = raw).
    { revert raw H. induction ms as [|[k t] ms IHt]; intros raw H; cbn [flat_map] in H; [inversion H; subst; exists []; split; [constructor|reflexivity]|].
      apply f2_app_split in H as [x [y [-> [X Y]]]]. destruct (Forall_inv IH (Forall_inv G) x X) as [v [V1 V2]]. destruct (IHt (Forall_inv_tail IH) (Forall_inv_tail G) y Y) as [l [L2 L3]]. exists ((k, v) :: l). split; [constructor; [split; [reflexivity|exact V1]|assumption]|]. cbn [flat_map snd]. rewrite V2, L3. reflexivity. }
    destruct Q as [l [L2 L3]]. exists (VStruct l). split; [apply type_struct; assumption|exact L3].
  - contradiction G.
Qed.
Lemma bind_all : forall (ps : list zparam) rho xs rho', bind_params rho ps xs = Some rho' -> Forall2 (fun p x => val_of_input (zptype p) x <> None) ps xs.
Proof.
  induction ps as [|p ps IH]; intros rho [|x xs] rho' H; cbn [bind_params] in *; try discriminate H; [constructor|].
  destruct (val_of_input (zptype p) x) eqn:E; [|discriminate H]. constructor; [congruence|eapply IH; exact H].
Qed.
Lemma f2_map_l : forall A B C (f : A -> B) (R : B -> C -> Prop) l m, Forall2 (fun a c => R (f a) c) l m -> Forall2 R (map f l) m.
Proof. induction 1; constructor; auto. Qed.
Lemma args_values : forall ps inputs rho zr, Forall (fun q => good_ty (pty q)) ps -> bind_params rho (flat_map flat_param ps) inputs = Some zr -> exists vs, Forall2 has_type vs (map pty ps) /\ inputs = encode_values vs.
Proof.
  intros ps inputs rho zr G B. apply bind_all in B. revert inputs B. induction ps as [|q ps IH]; intros inputs B; cbn [flat_map] in B; [inversion B; subst; exists []; split; [constructor|reflexivity]|].
  apply f2_app_split in B as [x [y [-> [X Y]]]]. unfold flat_param in X. destruct (input_values (pty q) (Forall_inv G) x) as [v [V1 V2]].
  { rewrite <- (ids_leaves (pty q) (SBase (pname q))). apply f2_map_l. fold (pname q) in X. fold (pty q) in X. clear - X. set (ids := flat_ids (SBase (pname q)) (pty q)) in *. clearbody ids. revert x X. induction ids as [|p ids IH]; intros x X; cbn [map] in X; inversion X; subst; constructor; [cbn [zptype] in *; assumption|apply IH; assumption]. }
  destruct (IH (Forall_inv_tail G) y Y) as [vs [W1 W2]]. exists (v :: vs). split; [constructor; assumption|]. unfold encode_values in *. cbn [flat_map]. rewrite V2, <- W2. reflexivity.
Qed.

(** ** Runs *)
Lemma tparams_dom : forall ps (S : tctx) x, fold_left (fun S p => cupd S (fst (fst p)) (snd (fst p))) ps S x <> None -> S x <> None \/ In x (map pname ps).
Proof.
  induction ps as [|q ps IH]; intros S x H; cbn [fold_left] in H; [left; exact H|]. apply IH in H as [H|H]; [|right; right; exact H]. unfold cupd in H. destruct (x =? fst (fst q)) eqn:E; [right; left; apply Z.eqb_eq in E; symmetry; exact E|left; exact H].
Qed.
Lemma well_fresh : forall p S, well_typed p -> tstys (tparams (targs p)) (tbody p) S -> NoDup (map pname (targs p)) /\ fresh (tparams (targs p)) (sdefss (tbody p) ++ tdefs (tret p)) /\ fresh (tparams (targs p)) (sdefss (tbody p)) /\ fresh S (tdefs (tret p)) /\ (forall x, In x (map pname (targs p)) -> ~ In x (sdefss (tbody p) ++ tdefs (tret p))).
Proof.
  intros p S [_ [_ N]] T. change (map (fun q => fst (fst q)) (targs p)) with (map pname (targs p)) in N. apply nodup_app_inv in N as [N1 [N2 N3]].
  assert (Fr : fresh (tparams (targs p)) (sdefss (tbody p) ++ tdefs (tret p))).
  { split; [exact N2|]. intros x I. destruct (tparams (targs p) x) as [t|] eqn:E; [|reflexivity]. exfalso. destruct (tparams_dom (targs p) (fun _ => None) x) as [H|H]; [unfold tparams in E; rewrite E; discriminate|contradiction H; reflexivity|exact (N3 x H I)]. }
  split; [exact N1|]. split; [exact Fr|]. split; [exact (proj1 (fresh_app _ _ _ Fr))|]. split; [|exact N3]. apply (fresh_next _ _ _ _ Fr). exact (dom_tstys _ _ _ T).
Qed.
Lemma flatten_inv : forall p z, flatten p = Some z -> exists ss sr zs, tflat_stmts (tbody p) = Some ss /\ tflat (tret p) = Some (sr, zs) /\ z = mkZProg (flat_map flat_param (targs p)) (ss ++ sr ++ [ZReturn zs]) (prim_count (tretty p)).
Proof.
  intros p z H. unfold flatten in H. destruct (tflat_stmts (tbody p)) as [ss|]; [|discriminate H]. destruct (tflat (tret p)) as [[sr zs]|]; [|discriminate H]. injection H as <-. exists ss, sr, zs. auto.
Qed.
Lemma rel_nil : rel (fun _ => None) (fun _ => None) (fun _ => None).
Proof. intros x t H. discriminate H. Qed.
Theorem flatten_run : forall p z vs, wide -> well_typed p -> flatten p = Some z -> Forall2 has_type vs (map pty (targs p)) ->
  match trun p vs with
  | Ok (v, lg) => has_type v (tretty p) /\ sem_prog z (encode_values vs) = Some (encode v, map zentry lg)
  | Failed => sem_prog z (encode_values vs) = None
  | Stuck => True
  end.
Proof.
  intros p z vs W Wt H Tv. pose proof Wt as [G [[S [T1 T2]] _]]. destruct (well_fresh p S Wt T1) as [_ [_ [F1 [F2 _]]]]. apply flatten_inv in H as [ss [sr [zs [E1 [E2 ->]]]]].
  destruct (bind_args W (targs p) vs _ _ _ G Tv rel_nil) as [zr [B R]]. change (fold_left _ (targs p) (fun _ => None)) with (tparams (targs p)) in R.
  pose proof (proj2 (proj2 (proj2 flatten_runs)) _ _ _ T1 ss _ zr [] [] E1 F1 R) as Q. unfold trun, sem_prog. cbn [zargs zbody]. rewrite B, sem_stmts_app. destruct (texecs (tbind (fun _ => None) (targs p) vs) (tbody p)) as [[lg rho]| |]; cbn [obnd fst snd]; [|rewrite Q; reflexivity|exact I].
  destruct Q as [zr1 [X1 [_ R1]]]. rewrite X1, sem_stmts_app. cbn [app]. pose proof (proj1 flatten_runs _ _ _ T2 sr zs rho zr1 [] (map zentry lg) E2 F2 R1) as Q. destruct (teval rho (tret p)) as [[lg2 v]| |]; cbn [obnd fst snd]; [|rewrite Q; reflexivity|exact I].
  destruct Q as [Tr [zr2 [X2 [_ A2]]]]. split; [exact Tr|]. rewrite X2. cbn [sem_stmts sem_stmt os_env os_log os_ret]. rewrite (rps_sem _ _ _ (A2 zr2 (agree_refl _ _ _))). cbn [os_ret os_log]. rewrite (flat_val_encode _ _ Tr), map_app. reflexivity.
Qed.
(** a false assertion of the main function *)
Definition assert_fails (p : tprog) (vs : list value_) : Prop :=
  exists pre e err post lg1 rho lg2, tbody p = pre ++ TAssert e err :: post /\ texecs (tbind (fun _ => None) (targs p) vs) pre = Ok (lg1, rho) /\ teval rho e = Ok (lg2, VBool false).
Lemma tstys_app_inv : forall a b S S2, tstys S (a ++ b) S2 -> exists S1, tstys S a S1 /\ tstys S1 b S2.
Proof. induction a as [|s a IH]; intros b S S2 H; cbn [app] in H; [exists S; split; [constructor|exact H]|]. inversion H as [|? S3 ? ? ? X Y]; subst. destruct (IH _ _ _ Y) as [S1 [A B]]. exists S1. split; [econstructor; eassumption|exact B]. Qed.
Lemma tflat_app_inv : forall a b zs, tflat_stmts (a ++ b) = Some zs -> exists x y, tflat_stmts a = Some x /\ tflat_stmts b = Some y /\ zs = x ++ y.
Proof.
  unfold tflat_stmts. induction a as [|s a IH]; intros b zs H; cbn [app flat_stmt_list] in *; [exists [], zs; auto|]. destruct (tflat_stmt s) as [u|]; [|discriminate H]. destruct (flat_stmt_list tflat_stmt (a ++ b)) as [w|] eqn:E; [|discriminate H]. injection H as <-. destruct (IH b w E) as [x [y [A [B ->]]]]. rewrite A. exists (u ++ x), y. rewrite app_assoc. auto.
Qed.
Lemma sdefss_app : forall a b : list tstmt, sdefss (a ++ b) = sdefss a ++ sdefss b.
Proof. unfold sdefss. induction a as [|s a IH]; intros b; [reflexivity|]. cbn [app tdefs_stmts]. rewrite IH, app_assoc. reflexivity. Qed.
Theorem flatten_violates : forall R p z vs, wide -> well_typed p -> flatten p = Some z -> Forall2 has_type vs (map pty (targs p)) -> assert_fails p vs -> violates_prog R z (encode_values vs).
Proof.
  intros R0 p z vs W Wt H Tv [pre [e [err [post [lg1 [rho [lg2 [Eb [X1 X2]]]]]]]]]. pose proof Wt as [G [[S [T1 T2]] _]]. destruct (well_fresh p S Wt T1) as [_ [_ [F1 _]]]. apply flatten_inv in H as [ss [sr [zs [E1 [E2 ->]]]]].
  destruct (bind_args W (targs p) vs _ _ _ G Tv rel_nil) as [zr [B R]]. change (fold_left _ (targs p) (fun _ => None)) with (tparams (targs p)) in R. exists zr. cbn [zargs zbody]. split; [exact B|]. apply viol_app_l.
  rewrite Eb in T1, E1, F1. apply tstys_app_inv in T1 as [S1 [Ta Tb]]. inversion Tb as [|? S2 ? ? ? Ts Tp]; subst. inversion Ts as [|? ? ? Te| |]; subst. apply tflat_app_inv in E1 as [x [y [Ea [Ey ->]]]].
  change (tflat_stmts (TAssert e err :: post)) with (match tflat_stmt (TAssert e err), tflat_stmts post with Some a, Some b => Some (a ++ b) | _, _ => None end) in Ey. rewrite u_fassert in Ey. destruct (tflat e) as [[se ze]|] eqn:Ee; [|discriminate Ey]. destruct (popE ze) as [zc|] eqn:Ep; [|discriminate Ey]. destruct (tflat_stmts post) as [sp|]; [|discriminate Ey]. injection Ey as <-.
  rewrite sdefss_app in F1. pose proof (fresh_next _ S2 _ _ F1 (dom_tstys _ _ _ Ta)) as F2. destruct (fresh_app _ _ _ F1) as [Fa _]. change (sdefss (TAssert e err :: post)) with (sdefs (TAssert e err) ++ sdefss post) in F2. rewrite u_dassert in F2. destruct (fresh_app _ _ _ F2) as [Fe _].
  pose proof (proj2 (proj2 (proj2 flatten_runs)) _ _ _ Ta x _ zr [] [] Ea Fa R) as Z0. rewrite X1 in Z0. destruct Z0 as [zr1 [Y1 [_ R1]]]. apply (viol_app_r _ _ _ _ _ Y1). apply viol_app_l.
  pose proof (proj1 flatten_runs _ _ _ Te se ze rho zr1 [] ([] ++ map zentry lg1) Ee Fe R1) as Z0. rewrite X2 in Z0. destruct Z0 as [_ [zr2 [Y2 [_ A2]]]]. apply (viol_app_r _ _ _ _ _ Y2).
  pose proof (A2 zr2 (agree_refl _ _ _)) as Z0. unfold rps in Z0. cbn [flat_val] in Z0. inversion Z0 as [|z0 ? zr0 ? [Z1 _] Z2]; subst. inversion Z2; subst. rewrite pop_one in Ep. injection Ep as <-. apply VHere, VAssert. exact Z1.
Qed.

(** a built-in function called by the main function rejects its arguments *)
Definition builtin_rejects (p : tprog) (vs : list value_) : Prop :=
  exists pre x t em args post lg1 rho lg2 us, tbody p = pre ++ TEmb x t em args :: post /\ texecs (tbind (fun _ => None) (targs p) vs) pre = Ok (lg1, rho) /\ tevals rho args = Ok (lg2, us) /\ sem_emb em us = Failed.
Lemma emb_rejects : forall em vs, @sem_emb PF em vs = Failed -> may_reject em = true.
Proof.
  intros em vs H. destruct em as [|n|n|n|n]; cbn [sem_emb] in H; try reflexivity.
  - destruct vs as [|[| |k|l|l|l] [|]]; try discriminate H. destruct (uwn _ =? n)%nat in H; discriminate H.
  - destruct vs as [|[| | |l| |] [|]]; try discriminate H. destruct (bools l) as [bs|]; [|discriminate H]. cbn [of_opt obnd] in H. do 65 (destruct n as [|n]; [discriminate H|]). discriminate H.
  - destruct vs as [|[| | |l| |] [|[| | |l'| |] [|]]]; try discriminate H. destruct (bools l) as [bs|]; [|discriminate H]. destruct (bools l') as [bs'|]; discriminate H.
Qed.
Theorem flatten_rejects : forall p z vs, wide -> well_typed p -> flatten p = Some z -> Forall2 has_type vs (map pty (targs p)) -> builtin_rejects p vs -> violates_prog true z (encode_values vs).
Proof.
  intros p z vs W Wt H Tv (pre & x0 & t & em & args & post & lg1 & rho & lg2 & us & Eb & X1 & X2 & X3). pose proof Wt as [G [[S [T1 T2]] _]]. destruct (well_fresh p S Wt T1) as [_ [_ [F1 _]]]. apply flatten_inv in H as [ss [sr [zs [E1 [E2 ->]]]]].
  destruct (bind_args W (targs p) vs _ _ _ G Tv rel_nil) as [zr [B R]]. change (fold_left _ (targs p) (fun _ => None)) with (tparams (targs p)) in R. exists zr. cbn [zargs zbody]. split; [exact B|]. apply viol_app_l.
  rewrite Eb in T1, E1, F1. apply tstys_app_inv in T1 as [S1 [Ta Tb]]. inversion Tb as [|? S2 ? ? ? Ts Tp]; subst. inversion Ts as [| |? ? ? ? ? ts Te Em|]; subst. apply tflat_app_inv in E1 as [x [y [Ea [Ey ->]]]].
  change (tflat_stmts (TEmb x0 t em args :: post)) with (match tflat_stmt (TEmb x0 t em args), tflat_stmts post with Some a, Some b => Some (a ++ b) | _, _ => None end) in Ey. rewrite u_femb in Ey. destruct (tflats args) as [[se zss]|] eqn:Ee; [|discriminate Ey]. destruct (tflat_stmts post) as [sp|]; [|discriminate Ey]. injection Ey as <-.
  rewrite sdefss_app in F1. pose proof (fresh_next _ S1 _ _ F1 (dom_tstys _ _ _ Ta)) as F2. destruct (fresh_app _ _ _ F1) as [Fa _]. change (sdefss (TEmb x0 t em args :: post)) with (sdefs (TEmb x0 t em args) ++ sdefss post) in F2. rewrite u_demb in F2. destruct (fresh_app _ _ _ F2) as [Fe _]. destruct (fresh_app _ _ _ Fe) as [Ff _].
  pose proof (proj2 (proj2 (proj2 flatten_runs)) _ _ _ Ta x _ zr [] [] Ea Fa R) as Z0. rewrite X1 in Z0. destruct Z0 as [zr1 [Y1 [_ R1]]]. apply (viol_app_r _ _ _ _ _ Y1). apply viol_app_l.
  pose proof (proj1 (proj2 flatten_runs) _ _ _ Te se zss rho zr1 [] ([] ++ map zentry lg1) Ee Ff R1) as Z0. rewrite X2 in Z0. destruct Z0 as [T [zr2 [Y2 [_ A2]]]]. apply (viol_app_r _ _ _ _ _ Y2).
  assert (Z1 : sem_list zr2 (concat zss) = Some (flat_map flat_val us)) by (apply rp_sem, f2_concat, (A2 zr2 (agree_refl _ _ _))).
  pose proof (emb_ok em ts t us Em T) as Z0. rewrite X3 in Z0. apply VHere. apply (VEmb true _ _ em _ (flat_map flat_val us) eq_refl (emb_rejects _ _ X3)); [exact Z1|exact Z0].
Qed.

(** ** Shape and types of the flattened program *)
Lemma sty_param : forall q (S : tctx) Y, good_ty (pty q) -> reld S Y ->
  reld (cupd S (pname q) (pty q)) (fold_left (fun S p => supd S (zpid p) (zptype p)) (flat_param q) Y) /\ touchd [pname q] Y (fold_left (fun S p => supd S (zpid p) (zptype p)) (flat_param q) Y).
Proof.
  intros q S Y G R. set (ids := flat_ids (SBase (pname q)) (pty q)).
  assert (E : forall (ids : list (sid * lty)) Y, fold_left (fun S p => supd S (zpid p) (zptype p)) (map (fun p => mkZParam (name (fst p)) (lptype (snd p)) (snd q)) ids) Y = supds Y (map (fun p => name (fst p)) ids) (map (fun p => lptype (snd p)) ids)).
  { intros l. induction l as [|p l IH]; intros Y0; [reflexivity|]. cbn [map fold_left zpid zptype supds]. apply IH. }
  unfold flat_param. fold (pname q) (pty q). fold ids. rewrite E. destruct (supds_ok ids Y (ids_nodup _ _ G)) as [Q2 Q3]. set (Y' := supds Y _ _) in *.
  assert (O : forall s, base s <> pname q -> Y' (name s) = Y (name s)) by (intros s P; apply Q2; intros Q'; apply in_map_iff in Q' as [[s' lt] [<- Q']]; apply P; apply (ids_base _ _ _ _ Q')).
  split; [|intros s P; apply O; intros X; apply P; left; symmetry; exact X]. intros y u Ey. unfold cupd in Ey. destruct (y =? pname q) eqn:Ey2; [apply Z.eqb_eq in Ey2; subst y; injection Ey as <-; exact Q3|].
  apply (declares_agree Y); [apply R; exact Ey|]. intros s <-. apply O. intros P. rewrite P, Z.eqb_refl in Ey2. discriminate Ey2.
Qed.
Lemma sty_args : forall ps (S : tctx) Y, Forall (fun q => good_ty (pty q)) ps -> reld S Y ->
  reld (fold_left (fun S p => cupd S (fst (fst p)) (snd (fst p))) ps S) (fold_left (fun S p => supd S (zpid p) (zptype p)) (flat_map flat_param ps) Y) /\ touchd (map pname ps) Y (fold_left (fun S p => supd S (zpid p) (zptype p)) (flat_map flat_param ps) Y).
Proof.
  induction ps as [|q ps IH]; intros S Y G R; [split; [exact R|apply touchd_refl]|]. cbn [flat_map fold_left map]. rewrite fold_left_app. destruct (sty_param q S Y (Forall_inv G) R) as [A B]. destruct (IH _ _ (Forall_inv_tail G) A) as [C D]. split; [exact C|]. exact (touchd_app [pname q] _ _ _ _ B D).
Qed.
Lemma params_once : forall ps, Forall (fun q => good_ty (pty q)) ps -> NoDup (map pname ps) -> NoDup (map zpid (flat_map flat_param ps)) /\ (forall x, In x (map zpid (flat_map flat_param ps)) -> of_vars (fun y => In y (map pname ps)) x).
Proof.
  induction ps as [|q ps IH]; intros G N; [split; [constructor|intros x []]|]. cbn [map] in N. inversion N as [|? ? N1 N2]; subst. destruct (IH (Forall_inv_tail G) N2) as [A B]. cbn [flat_map]. rewrite map_app.
  assert (C : forall x, In x (map zpid (flat_param q)) -> of_vars (fun y => y = pname q) x).
  { intros x I. unfold flat_param in I. rewrite map_map in I. apply in_map_iff in I as [[s l] [<- I]]. exists s. split; [reflexivity|]. exact (ids_base _ _ _ _ I). }
  split.
  - apply nodup_app; [|exact A|].
    + unfold flat_param. rewrite map_map. cbn [zpid]. pose proof (ids_nodup (pty q) (SBase (pname q)) (Forall_inv G)) as U. fold (pname q) (pty q). set (ids := flat_ids (SBase (pname q)) (pty q)) in *. clearbody ids. clear - U. induction ids as [|p ids IH]; [constructor|]. cbn [map] in *. inversion U as [|? ? U1 U2]; subst. constructor; [|apply IH; exact U2]. intros I. apply U1. apply in_map_iff in I as [p' [E I]]. apply name_inj in E. rewrite <- E. apply in_map. exact I.
    + intros x I J. destruct (of_vars_inj _ _ _ (C x I) (B x J)) as [y [-> Y]]. exact (N1 Y).
  - intros x I. apply in_app_or in I as [I|I]; [apply C in I; revert I; apply ov_mono; intros y ->; left; reflexivity|apply B in I; revert I; apply ov_mono; intros y Y; right; exact Y].
Qed.
Theorem flatten_wf : forall p z, (131 <= required_bits)%nat -> well_typed p -> flatten p = Some z -> sty_prog z /\ ends_return z /\ ssa_prog z /\ scoped_prog z.
Proof.
  intros p z Hr Wt H. pose proof Wt as [G [[S [T1 T2]] _]]. destruct (well_fresh p S Wt T1) as [N1 [F0 [F1 [F2 N3]]]]. apply flatten_inv in H as [ss [sr [zs [E1 [E2 ->]]]]].
  assert (R0 : reld (fun _ => None) (fun _ => None)) by (intros x t H; discriminate H). destruct (sty_args (targs p) _ _ G R0) as [R1 To]. change (fold_left _ (targs p) (fun _ => None)) with (tparams (targs p)) in R1. change (fold_left _ (flat_map flat_param (targs p)) (fun _ => None)) with (sty_params (flat_map flat_param (targs p))) in R1, To.
  assert (Nw : newd (sdefss (tbody p) ++ tdefs (tret p)) (sty_params (flat_map flat_param (targs p)))) by (intros s I; rewrite To; [reflexivity|]; intros J; exact (N3 _ J I)). apply newd_app in Nw as [Nw1 Nw2].
  destruct (proj2 (proj2 (proj2 (flatten_types Hr))) _ _ _ T1 ss _ E1 F1 R1 Nw1) as [Y1 [A1 [B1 C1]]].
  assert (Nw3 : newd (tdefs (tret p)) Y1) by (apply (newd_touch _ _ _ _ Nw2 B1); apply (fresh_app _ _ _ F0)).
  destruct (proj1 (flatten_types Hr) _ _ _ T2 sr zs Y1 E2 F2 C1 Nw3) as [Y2 [A2 [B2 C2]]]. specialize (C2 Y2 (agreed_refl _ _ _)).
  pose proof (proj2 (proj2 (proj2 flatten_shape)) _ _ _ T1 ss E1 F1) as Sh1. destruct (proj1 flatten_shape _ _ _ T2 sr zs E2 F2) as [Sh2 _].
  assert (Sh : shaped (tparams (targs p)) (sdefss (tbody p) ++ tdefs (tret p)) (ss ++ sr)) by (apply (shaped_app _ S); [exact Sh1|exact Sh2|intros x X; exact (dom_tstys _ _ _ T1 x X)|apply (fresh_app _ _ _ F0)]).
  assert (Lz : length zs = prim_count (tretty p)) by (rewrite <- leaves_count; exact (f2_len _ _ _ _ _ C2)).
  split; [|split; [|split]].
  - unfold sty_prog. cbn [zargs zbody zret]. split; [|split].
    + clear - G Hr. induction (targs p) as [|q ps IH]; [constructor|]. cbn [flat_map]. apply Forall_app. split; [|apply IH; exact (Forall_inv_tail G)]. unfold flat_param. apply Forall_forall. intros x I. apply in_map_iff in I as [[s l] [<- _]]. cbn [zptype snd]. apply tywid_l. exact Hr.
    + exists Y2. apply (sty_app _ _ _ Y1); [exact A1|]. apply (sty_app _ _ _ Y2); [exact A2|]. apply sty_one. eapply SReturn. exact (zty_map _ _ _ C2).
    + exists (ss ++ sr), zs. split; [rewrite app_assoc; reflexivity|exact Lz].
  - exists (ss ++ sr), zs. cbn [zbody zret]. split; [rewrite app_assoc; reflexivity|]. split; [exact Lz|exact (sh_noret _ _ _ Sh)].
  - unfold ssa_prog. cbn [zargs zbody]. rewrite app_assoc, defss_app. unfold defss at 2. cbn [flat_map defs app]. rewrite app_nil_r. destruct (params_once (targs p) G N1) as [P1 P2]. apply nodup_app; [exact P1|exact (sh_once _ _ _ Sh)|]. intros x I J. destruct (of_vars_inj _ _ _ (P2 x I) (sh_defs _ _ _ Sh x J)) as [y [K1 K2]]. exact (N3 y K1 K2).
  - unfold scoped_prog. cbn [zbody]. rewrite app_assoc. apply Forall_app. split; [exact (sh_scoped _ _ _ Sh)|]. constructor; [exact I|constructor].
Qed.

(** ** Casts *)
Definition all_of {A} (P : A -> Prop) : list A -> Prop := fix go l := match l with [] => True | e :: r => P e /\ go r end.
(** no conversion of a field element to a boolean (field_to_bool_unsafe) *)
Fixpoint uncast_e (e : texp) : Prop :=
  match e with
  | TId _ _ => True
  | TOp _ args => all_of uncast_e args
  | TCond c x y => uncast_e c /\ uncast_e x /\ uncast_e y
  | TBlock ss e => all_of uncast_s ss /\ uncast_e e
  end
with uncast_s (s : tstmt) : Prop :=
  match s with
  | TDef _ _ e | TAssert e _ => uncast_e e
  | TEmb _ _ em args => em <> EFieldToBool /\ all_of uncast_e args
  | TLog _ args => all_of uncast_e args
  end.
Definition uncast (p : tprog) : Prop := all_of uncast_s (tbody p) /\ uncast_e (tret p).
Lemma u_ublock : forall ss e, uncast_e (TBlock ss e) = (all_of uncast_s ss /\ uncast_e e).
Proof. reflexivity. Qed.
Lemma u_udef : forall x t e, uncast_s (TDef x t e) = uncast_e e.
Proof. reflexivity. Qed.
Lemma u_uassert : forall e err, uncast_s (TAssert e err) = uncast_e e.
Proof. reflexivity. Qed.
Lemma u_uemb : forall x t em args, uncast_s (TEmb x t em args) = (em <> EFieldToBool /\ all_of uncast_e args).
Proof. reflexivity. Qed.
Lemma u_ulog : forall fmt args, uncast_s (TLog fmt args) = all_of uncast_e args.
Proof. reflexivity. Qed.
Lemma defs_zip_cast : forall ids zs, Forall no_cast (defs_zip ids zs).
Proof. intros ids zs. unfold defs_zip. apply Forall_forall. intros s I. apply in_map_iff in I as [p [<- _]]. exact Logic.I. Qed.
Lemma flatten_cast : (forall S e t, tty S e t -> forall ss zs, tflat e = Some (ss, zs) -> uncast_e e -> Forall no_cast ss) /\
  (forall S es ts, ttys S es ts -> forall ss zss, tflats es = Some (ss, zss) -> all_of uncast_e es -> Forall no_cast ss) /\
  (forall S s S1, tsty S s S1 -> forall ss, tflat_stmt s = Some ss -> uncast_s s -> Forall no_cast ss) /\
  (forall S ss S1, tstys S ss S1 -> forall zs, tflat_stmts ss = Some zs -> all_of uncast_s ss -> Forall no_cast zs).
Proof.
  apply typed_ind.
  - intros S t x _ ss zs H _. cbn [tflat] in H. injection H as <- _. constructor.
  - intros S op args ts t _ IH _ ss zs H U. cbn [tflat] in H. change (flat_list tflat args) with (tflats args) in H. destruct (tflats args) as [[sa zss]|] eqn:E; [|discriminate H]. destruct (comb op zss); [|discriminate H]. injection H as <- _. exact (IH _ _ eq_refl U).
  - intros S c x y t _ IHc _ IHx _ IHy ss zs H [U1 [U2 U3]]. cbn [tflat] in H. destruct (tflat c) as [[sc zc]|]; [|discriminate H]. destruct (tflat x) as [[sx zx]|]; [|discriminate H]. destruct (tflat y) as [[sy zy]|]; [|discriminate H]. destruct (popE zc) as [z|]; [|discriminate H]. destruct (zconds z zx zy); [|discriminate H]. injection H as <- _.
    apply Forall_app. split; [exact (IHc _ _ eq_refl U1)|]. specialize (IHx _ _ eq_refl U2). specialize (IHy _ _ eq_refl U3). assert (G : Forall no_cast [ZIf z sx sy]) by (constructor; [cbn [no_cast]; rewrite !no_cast_go; split; assumption|constructor]). destruct sx; [destruct sy; [constructor|exact G]|exact G].
  - intros S S' bs e t _ IHs _ IHe ss zs H U. rewrite u_fblock in H. rewrite u_ublock in U. destruct U as [U1 U2]. destruct (tflat_stmts bs) as [a|]; [|discriminate H]. destruct (tflat e) as [[b zs']|]; [|discriminate H]. injection H as <- _. apply Forall_app. split; [exact (IHs _ eq_refl U1)|exact (IHe _ _ eq_refl U2)].
  - intros S ss zss H _. injection H as <- _. constructor.
  - intros S e r t ts _ IHe _ IHr ss zss H [U1 U2]. change (tflats (e :: r)) with (match tflat e, tflats r with Some a, Some b => Some (fst a ++ fst b, snd a :: snd b) | _, _ => None end) in H. destruct (tflat e) as [[a za]|]; [|discriminate H]. destruct (tflats r) as [[b zb]|]; [|discriminate H]. injection H as <- _. cbn [fst]. apply Forall_app. split; [exact (IHe _ _ eq_refl U1)|exact (IHr _ _ eq_refl U2)].
  - intros S x t e _ _ IH ss H U. rewrite u_fdef in H. rewrite u_udef in U. destruct (tflat e) as [[a za]|]; [|discriminate H]. cbv zeta in H. destruct (length (flat_ids (SBase x) t) =? length za)%nat; [|discriminate H]. injection H as <-. apply Forall_app. split; [exact (IH _ _ eq_refl U)|apply defs_zip_cast].
  - intros S e err _ IH ss H U. rewrite u_fassert in H. rewrite u_uassert in U. destruct (tflat e) as [[a za]|]; [|discriminate H]. destruct (popE za); [|discriminate H]. injection H as <-. apply Forall_app. split; [exact (IH _ _ eq_refl U)|]. constructor; [exact I|constructor].
  - intros S x t em args ts _ IH _ ss H U. rewrite u_femb in H. rewrite u_uemb in U. destruct U as [U1 U2]. destruct (tflats args) as [[a za]|]; [|discriminate H]. injection H as <-. apply Forall_app. split; [exact (IH _ _ eq_refl U2)|]. constructor; [|constructor]. destruct em; try exact I. contradiction U1; reflexivity.
  - intros S fmt args ts _ IH ss H U. rewrite u_flog in H. rewrite u_ulog in U. destruct (tflats args) as [[a za]|]; [|discriminate H]. injection H as <-. apply Forall_app. split; [exact (IH _ _ eq_refl U)|]. constructor; [exact I|constructor].
  - intros S zs H _. injection H as <-. constructor.
  - intros S S1 S2 s r _ IHs _ IHr zs H [U1 U2]. change (tflat_stmts (s :: r)) with (match tflat_stmt s, tflat_stmts r with Some a, Some b => Some (a ++ b) | _, _ => None end) in H. destruct (tflat_stmt s) as [a|]; [|discriminate H]. destruct (tflat_stmts r) as [b|]; [|discriminate H]. injection H as <-. apply Forall_app. split; [exact (IHs _ eq_refl U1)|exact (IHr _ eq_refl U2)].
Qed.
Theorem flatten_uncast : forall p z, well_typed p -> flatten p = Some z -> uncast p -> no_cast_prog z.
Proof.
  intros p z [_ [[S [T1 T2]] _]] H [U1 U2]. apply flatten_inv in H as [ss [sr [zs [E1 [E2 ->]]]]]. unfold no_cast_prog. cbn [zbody]. rewrite app_assoc. apply Forall_app. split; [|constructor; [exact I|constructor]].
  apply Forall_app. split; [exact (proj2 (proj2 (proj2 flatten_cast)) _ _ _ T1 _ E1 U1)|exact (proj1 flatten_cast _ _ _ T2 _ _ E2 U2)].
Qed.
End End.
