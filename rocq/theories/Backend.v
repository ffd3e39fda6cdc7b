(** Model of the translation of an R1CS program to the constraint systems of the proof-system backends:
    /repo/zokrates_ark/src/lib.rs l.41-131, /repo/zokrates_bellman/src/lib.rs l.48-140 (the same algorithm).
    The external constraint systems (ark-relations, bellman) are modelled by what the calls mean: [new_input_variable]/[alloc_input]
    and [new_witness_variable]/[alloc] append a wire, [enforce] appends a constraint; the value closures are called when proving
    and not when generating keys. *)
From Coq Require Import ZArith List Bool Lia Ring.
From Verif Require Import PField SMap IR IRSpec Wf InterpProofs.
Import ListNotations.
Open Scope Z_scope.

Section Backend.
Context {PF : PrimeField}.

(** the constant wire, the n-th public wire after it, the n-th private wire *)
Inductive wire := WOne | WIn (n : nat) | WAux (n : nat).
Definition wlin := list (wire * F).
Record wcons := mkWc { wa : wlin; wb : wlin; wc : wlin }.
(** symbols, the variables of the public and private wires (ghost), their values, the remaining witness ([None]: no witness, key
    generation), the constraints *)
Record synth := mkSy { sysym : smap wire; syin : list var; syaux : list var; syinv : list F; syauxv : list F; sywit : option (smap F); sycons : list wcons }.

(** lib.rs l.60-82: allocate a wire; with a witness, the value is removed from it; [None]: AssignmentMissing, then unwrap panics *)
Definition alloc (public : bool) (v : var) (s : synth) : option (wire * synth) :=
  match sywit s with
  | None => Some (if public then (WIn (length (syin s)), mkSy (sysym s) (syin s ++ [v]) (syaux s) (syinv s) (syauxv s) None (sycons s))
                  else (WAux (length (syaux s)), mkSy (sysym s) (syin s) (syaux s ++ [v]) (syinv s) (syauxv s) None (sycons s)))
  | Some w =>
      match sget v w with
      | None => None
      | Some x => Some (if public then (WIn (length (syin s)), mkSy (sysym s) (syin s ++ [v]) (syaux s) (syinv s ++ [x]) (syauxv s) (Some (sdel v w)) (sycons s))
                        else (WAux (length (syaux s)), mkSy (sysym s) (syin s) (syaux s ++ [v]) (syinv s) (syauxv s ++ [x]) (Some (sdel v w)) (sycons s)))
      end
  end.
Definition set_sym (v : var) (wi : wire) (s : synth) : synth := mkSy (sput v wi (sysym s)) (syin s) (syaux s) (syinv s) (syauxv s) (sywit s) (sycons s).
(** l.41-75 ark_combination *)
Fixpoint combination (l : lincomb) (s : synth) : option (wlin * synth) :=
  match l with
  | [] => Some ([], s)
  | (v, c) :: r =>
      match match sget v (sysym s) with
            | Some wi => Some (wi, s)
            | None => match alloc (is_output v) v s with Some (wi, s') => Some (wi, set_sym v wi s') | None => None end
            end with
      | None => None
      | Some (wi, s1) => match combination r s1 with Some (t, s2) => Some ((wi, c) :: t, s2) | None => None end
      end
  end.
(** l.93-112: the arguments; the wires are allocated in order *)
Fixpoint arguments (ps : list param) (s : synth) : option synth :=
  match ps with
  | [] => Some s
  | p :: r => match alloc (negb (pprivate p)) (pid p) s with Some (wi, s') => arguments r (set_sym (pid p) wi s') | None => None end
  end.
(** l.114-122: only constraints are visited; blocks are skipped like directives and logs *)
Fixpoint statements (ss : list bstmt) (s : synth) : option synth :=
  match ss with
  | [] => Some s
  | Single (Constraint q l _) :: r =>
      match combination (qleft q) s with
      | None => None
      | Some (a, s1) => match combination (qright q) s1 with
                        | None => None
                        | Some (b, s2) => match combination l s2 with
                                          | None => None
                                          | Some (c, s3) => statements r (mkSy (sysym s3) (syin s3) (syaux s3) (syinv s3) (syauxv s3) (sywit s3) (sycons s3 ++ [mkWc a b c]))
                                          end
                        end
      end
  | _ :: r => statements r s
  end.
(** l.81-131 generate_constraints *)
Definition synthesize (p : prog) (w : option (smap F)) : option synth :=
  match arguments (pargs p) (mkSy [(vone, WOne)] [] [] [] [] w []) with Some s => statements (pstmts p) s | None => None end.

(** ** Meaning of a constraint system *)
Fixpoint weval (a : wire -> F) (l : wlin) : F := match l with [] => f0 | (wi, c) :: r => fadd (fmul c (a wi)) (weval a r) end.
Definition wsat (a : wire -> F) (cs : list wcons) : Prop := Forall (fun k => fmul (weval a (wa k)) (weval a (wb k)) = weval a (wc k)) cs.
Definition cs_values (s : synth) (wi : wire) : F :=
  match wi with WOne => f1 | WIn n => nth n (syinv s) f0 | WAux n => nth n (syauxv s) f0 end.

(** ** Invariant *)
Definition wire_of (s : synth) (v : var) (wi : wire) : Prop :=
  match wi with WOne => v = vone | WIn n => nth_error (syin s) n = Some v | WAux n => nth_error (syaux s) n = Some v end.
Definition live (s : synth) : list var := vone :: syin s ++ syaux s.
(** the values of the wires and the part of the witness that remains, w0 being the witness given *)
Definition vals_ok (w0 : option (smap F)) (s : synth) : Prop :=
  match w0 with
  | None => sywit s = None
  | Some w => exists r, sywit s = Some r /\ ssorted r /\ (forall v, ~ In v (syin s ++ syaux s) -> sget v r = sget v w) /\ (forall v, In v (syin s ++ syaux s) -> sget v r = None) /\
      Forall2 (fun v x => sget v w = Some x) (syin s) (syinv s) /\ Forall2 (fun v x => sget v w = Some x) (syaux s) (syauxv s)
  end.
Record SInv (w0 : option (smap F)) (s : synth) : Prop := {
  si_sym : forall v wi, sget v (sysym s) = Some wi <-> wire_of s v wi;
  si_nodup : NoDup (live s);
  si_vals : vals_ok w0 s }.
(** wires keep their meaning *)
Definition grows (s s' : synth) : Prop := (exists a, syin s' = syin s ++ a) /\ (exists b, syaux s' = syaux s ++ b) /\ sycons s' = sycons s.
Lemma grows_refl : forall s, grows s s. Proof. intros s. repeat split; try (exists []; symmetry; apply app_nil_r). Qed.
Lemma grows_trans : forall a b c, grows a b -> grows b c -> grows a c.
Proof. intros a b c [[x X] [[y Y] Z]] [[x' X'] [[y' Y'] Z']]. split; [exists (x ++ x'); rewrite X', X, app_assoc; reflexivity|]. split; [exists (y ++ y'); rewrite Y', Y, app_assoc; reflexivity|]. congruence. Qed.
Lemma nth_grow : forall (l a : list var) n v, nth_error l n = Some v -> nth_error (l ++ a) n = Some v.
Proof. intros l a n v H. rewrite nth_error_app1; auto. apply nth_error_Some. congruence. Qed.
Lemma wire_grows : forall s s' v wi, grows s s' -> wire_of s v wi -> wire_of s' v wi.
Proof. intros s s' v wi [[a A] [[b B] _]] H. destruct wi; cbn [wire_of] in *; auto; [rewrite A|rewrite B]; apply nth_grow; exact H. Qed.
Lemma NoDup_snoc : forall (l : list var) v, NoDup l -> ~ In v l -> NoDup (l ++ [v]).
Proof. induction l as [|x l IH]; intros v H N; cbn [app]; [constructor; [auto|constructor]|]. inversion H; subst. constructor; [rewrite in_app_iff; cbn in *; intuition congruence|]. apply IH; auto. intros X. apply N. right. exact X. Qed.
Lemma live_wire : forall s v, In v (live s) <-> exists wi, wire_of s v wi.
Proof.
  intros s v. unfold live. cbn [In]. rewrite in_app_iff. split.
  - intros [<-|[H|H]]; [exists WOne; reflexivity| |]; apply In_nth_error in H as [n H]; [exists (WIn n)|exists (WAux n)]; exact H.
  - intros [[|n|n] H]; cbn [wire_of] in H; [left; congruence|right; left|right; right]; eapply nth_error_In; eauto.
Qed.
Lemma Forall2_snoc : forall (P : var -> F -> Prop) a b v x, Forall2 P a b -> P v x -> Forall2 P (a ++ [v]) (b ++ [x]).
Proof. intros P a b v x H Hp. apply Forall2_app; auto. Qed.
Lemma alloc_ok : forall w0 pub v s wi s', SInv w0 s -> ~ In v (live s) -> alloc pub v s = Some (wi, s') ->
  SInv w0 (set_sym v wi s') /\ grows s (set_sym v wi s') /\ wire_of (set_sym v wi s') v wi /\
  syin s' = syin s ++ (if pub then [v] else []) /\ syaux s' = syaux s ++ (if pub then [] else [v]).
Proof.
  intros w0 pub v s wi s' [I1 I2 I3] N E.
  assert (K : sysym s' = sysym s /\ sycons s' = sycons s /\ syin s' = syin s ++ (if pub then [v] else []) /\ syaux s' = syaux s ++ (if pub then [] else [v]) /\ wi = (if pub then WIn (length (syin s)) else WAux (length (syaux s))) /\ vals_ok w0 s').
  { unfold alloc in E. unfold vals_ok in *. destruct w0 as [w|].
    - destruct I3 as [r [Er [Sr [R1 [R2 [R3 R4]]]]]]. rewrite Er in E. destruct (sget v r) as [x|] eqn:G; [|discriminate E].
      assert (Gw : sget v w = Some x) by (rewrite <- R1; [exact G|intros X; apply N; right; exact X]).
      destruct pub; injection E as <- <-; cbn [sysym sycons syin syaux syinv syauxv sywit]; rewrite ?app_nil_r; (repeat split; auto);
        exists (sdel v r); (split; [reflexivity|]); (split; [apply sdel_sorted; exact Sr|]); (split; [|split; [|split; [try exact R3; apply Forall2_snoc; auto|try exact R4; apply Forall2_snoc; auto]]]).
      all: intros u Hu; rewrite !in_app_iff in Hu; cbn [In] in Hu; destruct (Z.eq_dec u v) as [->|Nu].
      all: try (apply sget_sdel_eq; exact Sr). all: try (exfalso; apply Hu; tauto). all: rewrite sget_sdel_ne by exact Nu.
      all: try (apply R1; rewrite in_app_iff; tauto). all: try (apply R2; rewrite in_app_iff; intuition congruence).
    - rewrite I3 in E. destruct pub; injection E as <- <-; cbn [sysym sycons syin syaux sywit]; rewrite ?app_nil_r; repeat split; reflexivity. }
  destruct K as [K1 [K2 [K3 [K4 [K5 K6]]]]].
  assert (Gr : grows s (set_sym v wi s')) by (unfold grows, set_sym; cbn [syin syaux sycons]; split; [eexists; exact K3|split; [eexists; exact K4|exact K2]]).
  assert (Wv : wire_of (set_sym v wi s') v wi).
  { rewrite K5. unfold set_sym. destruct pub; cbn [wire_of syin syaux]; [rewrite K3|rewrite K4]; rewrite nth_error_app2, Nat.sub_diag by lia; reflexivity. }
  assert (Nd : NoDup (live (set_sym v wi s'))).
  { unfold live, set_sym. cbn [syin syaux]. rewrite K3, K4. unfold live in I2, N. inversion I2 as [|? ? A B]; subst.
    destruct pub; rewrite app_nil_r.
    - constructor; [rewrite !in_app_iff in *; cbn in *; intuition congruence|]. apply NoDup_Add with (a := v) (l := syin s ++ syaux s); [rewrite <- app_assoc; apply Add_app|]. split; [exact B|]. intros X. apply N. right. exact X.
    - constructor; [rewrite !in_app_iff in *; cbn in *; intuition congruence|]. rewrite app_assoc. apply NoDup_snoc; [exact B|]. intros X. apply N. right. exact X. }
  split; [|split; [exact Gr|split; [exact Wv|split; [exact K3|exact K4]]]].
  constructor; [|exact Nd|].
  - intros u wj. unfold set_sym at 1. cbn [sysym]. rewrite sget_sput, K1. destruct (Z.eqb_spec u v) as [->|Nu].
    + split; [intros X; injection X as <-; exact Wv|]. intros X. f_equal. pose proof Nd as Nd'. unfold live in Nd'. apply NoDup_cons_iff in Nd' as [A B].
      assert (Q : forall a b : nat, forall l : list var, NoDup l -> nth_error l a = Some v -> nth_error l b = Some v -> a = b).
      { intros a b l Hl Ha Hb. apply (proj1 (NoDup_nth_error l) Hl a b); [apply nth_error_Some; congruence|congruence]. }
      assert (L : forall n m, nth_error (syin (set_sym v wi s')) n = Some v -> nth_error (syaux (set_sym v wi s')) m = Some v -> False).
      { intros n m Hn Hm. apply nth_error_In in Hn, Hm. clear - B Hn Hm. unfold set_sym in *. cbn [syin syaux] in *. induction (syin s') as [|z l IH]; [destruct Hn|]. cbn in B. inversion B; subst. destruct Hn as [->|Hn]; [apply H1, in_or_app; right; exact Hm|auto]. }
      assert (Ni : NoDup (syin (set_sym v wi s'))) by (unfold set_sym; cbn [syin]; clear - B; unfold set_sym in B; cbn [syin syaux] in B; induction (syin s') as [|z l IH]; [constructor|]; inversion B; subst; constructor; [rewrite in_app_iff in H1; tauto|auto]).
      assert (Na : NoDup (syaux (set_sym v wi s'))) by (unfold set_sym; cbn [syaux]; clear - B; unfold set_sym in B; cbn [syin syaux] in B; induction (syin s') as [|z l IH]; [exact B|]; inversion B; subst; auto).
      rewrite K5 in Wv. rewrite K5. clear K5. destruct pub; destruct wj as [|n|n]; cbn [wire_of] in Wv, X; try (exfalso; apply N; left; congruence); try (exfalso; solve [exact (L _ _ Wv X)|exact (L _ _ X Wv)]); f_equal; first [exact (Q _ _ _ Ni Wv X)|exact (Q _ _ _ Na Wv X)].
    + rewrite I1. split; [intros X; eapply wire_grows; eauto|]. intros X. unfold set_sym in X. destruct wj as [|n|n]; cbn [wire_of syin syaux] in *; auto.
      * rewrite K3 in X. destruct pub; [|rewrite app_nil_r in X; exact X]. destruct (Nat.lt_ge_cases n (length (syin s))) as [Ln|Ln]; [rewrite nth_error_app1 in X by exact Ln; exact X|].
        rewrite nth_error_app2 in X by exact Ln. destruct (n - length (syin s))%nat as [|[|]]; cbn in X; congruence.
      * rewrite K4 in X. destruct pub; [rewrite app_nil_r in X; exact X|]. destruct (Nat.lt_ge_cases n (length (syaux s))) as [Ln|Ln]; [rewrite nth_error_app1 in X by exact Ln; exact X|].
        rewrite nth_error_app2 in X by exact Ln. destruct (n - length (syaux s))%nat as [|[|]]; cbn in X; congruence.
  - unfold vals_ok, set_sym in *. cbn [syin syaux syinv syauxv sywit]. exact K6.
Qed.

(** spec: outputs in the order in which they first occur in a list of variables *)
Fixpoint new_outputs (seen vs : list var) : list var :=
  match vs with [] => [] | v :: r => if is_output v && negb (mem v seen) then v :: new_outputs (v :: seen) r else new_outputs seen r end.
Definition lrel (s : synth) (t : var * F) (u : wire * F) : Prop := snd t = snd u /\ wire_of s (fst t) (fst u).
Lemma combination_ok : forall w0 l s t s', SInv w0 s -> combination l s = Some (t, s') ->
  SInv w0 s' /\ grows s s' /\ Forall2 (lrel s') l t /\ syin s' = syin s ++ new_outputs (live s) (lc_vars l) /\ incl (live s') (live s ++ lc_vars l).
Proof.
  induction l as [|[v c] l IH]; intros s t s' I E; cbn [combination] in E.
  - injection E as <- <-. split; [exact I|]. split; [apply grows_refl|]. split; [constructor|]. cbn. rewrite !app_nil_r. split; [reflexivity|]. intros x X. exact X.
  - destruct (sget v (sysym s)) as [wi|] eqn:G.
    + destruct (combination l s) as [[t' s2]|] eqn:E2; [|discriminate E]. injection E as <- <-. destruct (IH _ _ _ I E2) as [J [Gr [R [Si Sl]]]]. split; [exact J|]. split; [exact Gr|].
      assert (Wv : wire_of s v wi) by (apply (si_sym _ _ I); exact G). split; [constructor; [split; [reflexivity|eapply wire_grows; eauto]|exact R]|].
      assert (M : mem v (live s) = true) by (apply mem_In, live_wire; eauto). cbn [lc_vars map fst new_outputs]. rewrite M, andb_false_r. split; [exact Si|]. intros x X. apply Sl in X. rewrite in_app_iff in *. cbn. tauto.
    + destruct (alloc (is_output v) v s) as [[wi s1]|] eqn:A; [|discriminate E]. destruct (combination l (set_sym v wi s1)) as [[t' s2]|] eqn:E2; [|discriminate E]. injection E as <- <-.
      assert (N : ~ In v (live s)) by (intros X; apply live_wire in X as [wi' X]; apply (si_sym _ _ I) in X; congruence).
      destruct (alloc_ok _ _ _ _ _ _ I N A) as [J [G1 [Wv [S1 S2]]]]. destruct (IH _ _ _ J E2) as [J2 [G2 [R [Si Sl]]]]. split; [exact J2|]. split; [eapply grows_trans; eauto|].
      split; [constructor; [split; [reflexivity|eapply wire_grows; eauto]|exact R]|]. cbn [lc_vars map fst new_outputs].
      assert (M : mem v (live s) = false) by (destruct (mem v (live s)) eqn:M; [apply mem_In in M; contradiction|reflexivity]). rewrite M, andb_true_r.
      assert (Nx : forall a b vs, (forall x, is_output x = true -> (In x a <-> In x b)) -> new_outputs a vs = new_outputs b vs).
      { clear. intros a b vs. revert a b. induction vs as [|x vs IHv]; intros a b H; cbn [new_outputs]; [reflexivity|]. destruct (is_output x) eqn:O; cbn [andb]; [|apply IHv; exact H].
        assert (Em : mem x a = mem x b) by (destruct (mem x a) eqn:X; destruct (mem x b) eqn:Y; auto; [apply mem_In, (H x O) in X|apply mem_In, (H x O) in Y]; apply mem_In in X || apply mem_In in Y; congruence).
        rewrite Em. destruct (mem x b); cbn [negb]; [apply IHv; exact H|]. f_equal. apply IHv. intros y Oy. cbn. rewrite (H y Oy). tauto. }
      change (syin (set_sym v wi s1)) with (syin s1) in Si. change (live (set_sym v wi s1)) with (live s1) in Si, Sl.
      assert (Lv : forall x, In x (live s1) <-> In x (live s) \/ x = v).
      { intros x. unfold live. rewrite S1, S2. destruct (is_output v); cbn [In]; rewrite !app_nil_r, !in_app_iff; cbn [In]; intuition congruence. }
      split.
      * rewrite Si, S1. destruct (is_output v) eqn:O.
        -- rewrite <- app_assoc. cbn [app]. do 2 f_equal. apply Nx. intros x Ox. rewrite Lv. cbn. intuition congruence.
        -- rewrite app_nil_r. f_equal. apply Nx. intros x Ox. rewrite Lv. intuition congruence.
      * intros x X. apply Sl in X. rewrite in_app_iff in *. cbn. rewrite Lv in X. intuition congruence.
Qed.
Lemma new_outputs_app : forall a b seen, new_outputs seen (a ++ b) = new_outputs seen a ++ new_outputs (rev (new_outputs seen a) ++ seen) b.
Proof.
  induction a as [|x a IH]; intros b seen; cbn [app new_outputs]; [reflexivity|]. destruct (is_output x && negb (mem x seen)); [|apply IH]. cbn [app rev]. rewrite IH. rewrite <- app_assoc. reflexivity.
Qed.
Lemma new_outputs_ext : forall vs a b, (forall x, is_output x = true -> (In x a <-> In x b)) -> new_outputs a vs = new_outputs b vs.
Proof.
  induction vs as [|x vs IHv]; intros a b H; cbn [new_outputs]; [reflexivity|]. destruct (is_output x) eqn:O; cbn [andb]; [|apply IHv; exact H].
  assert (Em : mem x a = mem x b) by (destruct (mem x a) eqn:X; destruct (mem x b) eqn:Y; auto; [apply mem_In, (H x O) in X|apply mem_In, (H x O) in Y]; apply mem_In in X || apply mem_In in Y; congruence).
  rewrite Em. destruct (mem x b); cbn [negb]; [apply IHv; exact H|]. f_equal. apply IHv. intros y Oy. cbn. rewrite (H y Oy). tauto.
Qed.
Definition cvars (b : bstmt) : list var := match b with Single (Constraint q l _) => lc_vars (qleft q) ++ lc_vars (qright q) ++ lc_vars l | _ => [] end.
Definition crel (s : synth) (b : bstmt) (ks : list wcons) : Prop :=
  match b with
  | Single (Constraint q l _) => exists k, ks = [k] /\ Forall2 (lrel s) (qleft q) (wa k) /\ Forall2 (lrel s) (qright q) (wb k) /\ Forall2 (lrel s) l (wc k)
  | _ => ks = []
  end.
Lemma lrel_grows : forall s s' l t, grows s s' -> Forall2 (lrel s) l t -> Forall2 (lrel s') l t.
Proof. intros s s' l t G H. induction H as [|x y l t [A B] H IH]; constructor; auto. split; auto. eapply wire_grows; eauto. Qed.
Lemma crel_wires : forall s s' b ks, (exists a, syin s' = syin s ++ a) -> (exists a, syaux s' = syaux s ++ a) -> crel s b ks -> crel s' b ks.
Proof.
  intros s s' b ks A B H.
  assert (G : forall l t, Forall2 (lrel s) l t -> Forall2 (lrel s') l t).
  { intros l t K. induction K as [|x y l t [X Y] K IH]; constructor; auto. split; auto. destruct A as [a A], B as [b' B]. destruct (fst y); cbn [wire_of] in *; auto; [rewrite A|rewrite B]; apply nth_grow; exact Y. }
  destruct b as [[q l e| |]|]; cbn [crel] in *; auto. destruct H as [k [-> [H1 [H2 H3]]]]. exists k. auto.
Qed.
Lemma new_outputs_live : forall s s' vs x, grows s s' -> syin s' = syin s ++ new_outputs (live s) vs -> incl (live s') (live s ++ vs) -> is_output x = true ->
  (In x (live s') <-> In x (rev (new_outputs (live s) vs) ++ live s)).
Proof.
  intros s s' vs x [_ [[b B] _]] Si Sl O. rewrite in_app_iff, <- in_rev. split.
  - intros X. destruct (in_dec Z.eq_dec x (live s)) as [Y|Y]; [right; exact Y|left]. specialize (Sl _ X). rewrite in_app_iff in Sl. destruct Sl as [Sl|Sl]; [contradiction|].
    clear - Y Sl O. assert (Y' : ~ In x (live s)) by exact Y. revert Y'. generalize (live s). induction vs as [|y vs IH]; intros L Y'; [destruct Sl|]. cbn [new_outputs]. destruct (Z.eq_dec y x) as [->|Ne].
    + rewrite O. assert (M : mem x L = false) by (destruct (mem x L) eqn:M; auto; apply mem_In in M; contradiction). rewrite M. left. reflexivity.
    + destruct Sl as [Sl|Sl]; [congruence|]. destruct (is_output y && negb (mem y L)); [right|]; apply IH; auto. intros [Z|Z]; congruence.
  - intros [X|X].
    + unfold live. right. apply in_or_app. left. rewrite Si. apply in_or_app. right. exact X.
    + unfold live in *. destruct X as [X|X]; [left; exact X|right]. rewrite Si, B. rewrite !in_app_iff in *. tauto.
Qed.
Lemma statements_ok : forall w0 ss s s', SInv w0 s -> statements ss s = Some s' ->
  SInv w0 s' /\ (exists a, syin s' = syin s ++ a) /\ (exists b, syaux s' = syaux s ++ b) /\
  (exists kss, Forall2 (crel s') ss kss /\ sycons s' = sycons s ++ concat kss) /\
  syin s' = syin s ++ new_outputs (live s) (flat_map cvars ss) /\ incl (live s') (live s ++ flat_map cvars ss).
Proof.
  induction ss as [|b ss IH]; intros s s' I E; cbn [statements] in E.
  - injection E as <-. split; [exact I|]. split; [exists []; symmetry; apply app_nil_r|]. split; [exists []; symmetry; apply app_nil_r|]. split; [exists []; split; [constructor|symmetry; apply app_nil_r]|]. cbn. rewrite !app_nil_r. split; [reflexivity|]. intros x X. exact X.
  - assert (Skip : crel s' b [] -> cvars b = [] -> statements ss s = Some s' -> SInv w0 s' /\ (exists a, syin s' = syin s ++ a) /\ (exists c, syaux s' = syaux s ++ c) /\
      (exists kss, Forall2 (crel s') (b :: ss) kss /\ sycons s' = sycons s ++ concat kss) /\ syin s' = syin s ++ new_outputs (live s) (flat_map cvars (b :: ss)) /\ incl (live s') (live s ++ flat_map cvars (b :: ss))).
    { intros C V E'. destruct (IH _ _ I E') as [J [A [B [[kss [K1 K2]] [S1 S2]]]]]. split; [exact J|]. split; [exact A|]. split; [exact B|]. split; [exists ([] :: kss); split; [constructor; auto|exact K2]|]. cbn [flat_map]. rewrite V. cbn [app]. auto. }
    destruct b as [[q l e|outs sv ins|fm es]|bs]; try (apply Skip; [reflexivity|reflexivity|exact E]). clear Skip.
    destruct (combination (qleft q) s) as [[a s1]|] eqn:E1; [|discriminate E]. destruct (combination (qright q) s1) as [[b s2]|] eqn:E2; [|discriminate E]. destruct (combination l s2) as [[c s3]|] eqn:E3; [|discriminate E].
    destruct (combination_ok _ _ _ _ _ I E1) as [I1 [G1 [R1 [P1 L1]]]]. destruct (combination_ok _ _ _ _ _ I1 E2) as [I2 [G2 [R2 [P2 L2]]]]. destruct (combination_ok _ _ _ _ _ I2 E3) as [I3 [G3 [R3 [P3 L3]]]].
    set (s4 := mkSy (sysym s3) (syin s3) (syaux s3) (syinv s3) (syauxv s3) (sywit s3) (sycons s3 ++ [mkWc a b c])) in *.
    assert (I4 : SInv w0 s4) by (destruct I3 as [X1 X2 X3]; constructor; [exact X1|exact X2|exact X3]).
    destruct (IH _ _ I4 E) as [J [[da A] [[db B] [[kss [K1 K2]] [S1 S2]]]]].
    pose proof (grows_trans _ _ _ G1 (grows_trans _ _ _ G2 G3)) as G123. destruct G123 as [[ga GA] [[gb GB] GC]].
    split; [exact J|]. split; [exists (ga ++ da); rewrite A; cbn [s4 syin]; rewrite GA, app_assoc; reflexivity|]. split; [exists (gb ++ db); rewrite B; cbn [s4 syaux]; rewrite GB, app_assoc; reflexivity|].
    assert (C0 : crel s3 (Single (Constraint q l e)) [mkWc a b c]).
    { exists (mkWc a b c). split; [reflexivity|]. cbn [wa wb wc]. split; [exact (lrel_grows _ _ _ _ (grows_trans _ _ _ G2 G3) R1)|]. split; [exact (lrel_grows _ _ _ _ G3 R2)|exact R3]. }
    split; [exists ([mkWc a b c] :: kss); split; [constructor; [eapply crel_wires; [exists da; exact A|exists db; exact B|exact C0]|exact K1]|]|].
    { rewrite K2. cbn [s4 sycons concat]. rewrite GC, <- app_assoc. reflexivity. }
    assert (Lin : incl (live s3) (live s ++ (lc_vars (qleft q) ++ lc_vars (qright q) ++ lc_vars l))).
    { intros x X. apply L3 in X. apply in_app_or in X as [X|X]; [|rewrite !in_app_iff; auto]. apply L2 in X. apply in_app_or in X as [X|X]; [|rewrite !in_app_iff; auto]. apply L1 in X. rewrite !in_app_iff in *. tauto. }
    assert (Pin : syin s3 = syin s ++ new_outputs (live s) (lc_vars (qleft q) ++ lc_vars (qright q) ++ lc_vars l)).
    { rewrite P3, P2, P1, <- !app_assoc. f_equal. rewrite (new_outputs_app (lc_vars (qleft q))). f_equal.
      rewrite (new_outputs_ext (lc_vars (qright q)) (live s1) (rev (new_outputs (live s) (lc_vars (qleft q))) ++ live s)) by (intros x O; apply new_outputs_live; auto).
      rewrite (new_outputs_app (lc_vars (qright q))). f_equal. apply new_outputs_ext. intros x O. rewrite (new_outputs_live s1 s2 _ x G2 P2 L2 O), !in_app_iff, <- !in_rev.
      rewrite (new_outputs_live s s1 _ x G1 P1 L1 O), in_app_iff, <- in_rev.
      rewrite (new_outputs_ext (lc_vars (qright q)) (live s1) (rev (new_outputs (live s) (lc_vars (qleft q))) ++ live s)) by (intros y O'; apply new_outputs_live; auto). tauto. }
    cbn [flat_map cvars]. split.
    + rewrite S1. cbn [s4 syin]. rewrite Pin, <- app_assoc. f_equal. rewrite (new_outputs_app (lc_vars (qleft q) ++ lc_vars (qright q) ++ lc_vars l) (flat_map cvars ss)). f_equal. apply new_outputs_ext. intros x O. change (live s4) with (live s3).
      apply new_outputs_live; auto. split; [exists ga; exact GA|split; [exists gb; exact GB|exact GC]].
    + intros x X. apply S2 in X. apply in_app_or in X as [X|X]; [|rewrite !in_app_iff; auto]. change (live s4) with (live s3) in X. apply Lin in X. rewrite !in_app_iff in *. tauto.
Qed.
Lemma arguments_ok : forall w0 ps s s', SInv w0 s -> NoDup (live s ++ map pid ps) -> arguments ps s = Some s' ->
  SInv w0 s' /\ syin s' = syin s ++ map pid (filter (fun p => negb (pprivate p)) ps) /\ syaux s' = syaux s ++ map pid (filter pprivate ps) /\ sycons s' = sycons s.
Proof.
  induction ps as [|p ps IH]; intros s s' I N E; cbn [arguments] in E.
  - injection E as <-. cbn. rewrite !app_nil_r. auto.
  - destruct (alloc (negb (pprivate p)) (pid p) s) as [[wi s1]|] eqn:A; [|discriminate E]. cbn [map] in N.
    assert (Np : ~ In (pid p) (live s)) by (intros X; apply NoDup_remove_2 in N; apply N, in_or_app; left; exact X).
    destruct (alloc_ok _ _ _ _ _ _ I Np A) as [J [[_ [_ G]] [_ [S1 S2]]]].
    assert (N2 : NoDup (live (set_sym (pid p) wi s1) ++ map pid ps)).
    { assert (L : forall x, In x (live s ++ pid p :: map pid ps) -> In x (live (set_sym (pid p) wi s1) ++ map pid ps)).
      { intros x. unfold live, set_sym. cbn [syin syaux]. rewrite S1, S2. destruct (negb (pprivate p)); cbn [app In]; rewrite ?app_nil_r, !in_app_iff; cbn [In]; rewrite ?in_app_iff; cbn [In]; tauto. }
      eapply NoDup_incl_NoDup; [exact N| |exact L]. unfold live, set_sym. cbn [syin syaux]. rewrite S1, S2. destruct (negb (pprivate p)); cbn [app length]; rewrite !app_length; cbn [length]; rewrite ?app_length; cbn [length]; lia. }
    destruct (IH _ s' J N2 E) as [J' [T1 [T2 T3]]].
    split; [exact J'|]. unfold set_sym in T1, T2, T3. cbn [syin syaux sycons] in T1, T2, T3. cbn [filter]. rewrite T1, T2, S1, S2, <- !app_assoc. split; [|split; [|rewrite T3; exact G]]; destruct (pprivate p); reflexivity.
Qed.
Lemma init_inv : forall w, match w with Some m => ssorted m | None => True end -> SInv w (mkSy [(vone, WOne)] [] [] [] [] w []).
Proof.
  intros w H. constructor; cbn [sysym syin syaux syinv syauxv sywit live app].
  - intros v wi. cbn [sget]. destruct (Z.eqb_spec v vone) as [->|N]; [split; [intros X; injection X as <-; reflexivity|]|split; [intros X; discriminate X|]]; intros X; destruct wi as [|n|n]; cbn in X; try (destruct n; discriminate X); [reflexivity|congruence].
  - constructor; [intros []|constructor].
  - destruct w as [m|]; cbn; [|reflexivity]. exists m. repeat split; auto. intros v [].
Qed.
Lemma weval_ok : forall s (a : wire -> F) (w : env) l t, (forall v wi, wire_of s v wi -> a wi = w v) -> Forall2 (lrel s) l t -> weval a t = eval_lin w l.
Proof. intros s a w l t H R. induction R as [|[v c] [wi c'] l t [A B] R IH]; cbn [weval eval_lin]; [reflexivity|]. cbn in A, B. subst c'. rewrite IH, (H _ _ B). reflexivity. Qed.
End Backend.
