(** Program files: the whole file. *)
From Coq Require Import String.
From Coq Require Import ZArith List Bool Lia.
From Verif Require Import PField SMap IR IRSpec Interp InterpProofs Optimizer Bytes WitnessIO Cbor Sha256 ProgIO ProgIOProofs.
Import ListNotations.
Open Scope Z_scope.

(** ** The solver table *)
Section Index.
Context {PF : PrimeField}.
(** the ZIR functions used by the statements *)
Definition stmt_funs (s : stmt) : list Z := match s with Directive _ (SExt k _ _) _ => [k] | _ => [] end.
Definition funs (ss : list stmt) : list Z := flat_map stmt_funs ss.
Definition collision_free (hash : Z -> Z) (ss : list stmt) : Prop := forall a b, In a (funs ss) -> In b (funs ss) -> hash a = hash b -> a = b.
(** replace a reference by the function at its index *)
Definition resolve (tb : list Z) (s : stmt) : stmt :=
  match s with
  | Directive outs (SExt i a b) ins => Directive outs (SExt (nth (Z.to_nat i) tb 0) a b) ins
  | _ => s
  end.

Definition refs_in (tb : list Z) (s : stmt) : Prop := match s with Directive _ (SExt i _ _) _ => 0 <= i < Z.of_nat (length tb) | _ => True end.
Lemma refs_in_app : forall tb more s, refs_in tb s -> refs_in (tb ++ more) s.
Proof. intros tb more [q l e|outs [] ins|f es] H; try exact I. cbn [refs_in] in *. rewrite app_length. lia. Qed.

Definition idx_ok (hash : Z -> Z) (st : idx_state) : Prop :=
  forall h i, lookup h (index_map st) = Some i -> exists k, nth_error (table st) i = Some k /\ hash k = h.

Lemma index_stmt_spec : forall hash all st s st' s', (forall a b, In a all -> In b all -> hash a = hash b -> a = b) ->
  incl (stmt_funs s) all -> incl (table st) all -> idx_ok hash st -> index_stmt hash st s = (st', s') ->
  idx_ok hash st' /\ incl (table st') all /\ (exists more, table st' = table st ++ more /\ (length more <= 1)%nat) /\
  (forall more, resolve (table st' ++ more) s' = s) /\
  refs_in (table st') s' /\
  (forall b, stmt_fits s -> u64 b -> Z.of_nat (length (table st')) <= b -> stmt_fits s').
Proof.
  intros hash all st s st' s' Hh Hs Ht Hok H.
  assert (Same : st' = st /\ s' = s /\ stmt_funs s = [] ->
    idx_ok hash st' /\ incl (table st') all /\ (exists more, table st' = table st ++ more /\ (length more <= 1)%nat) /\
    (forall more, resolve (table st' ++ more) s' = s) /\ refs_in (table st') s' /\
  (forall b, stmt_fits s -> u64 b -> Z.of_nat (length (table st')) <= b -> stmt_fits s')).
  { intros [-> [-> E]]. split; [exact Hok|]. split; [exact Ht|]. split; [exists []; rewrite app_nil_r; split; [reflexivity|cbn; lia]|]. split; [|split; [|auto]].
    - intros more. destruct s as [q l e|outs sv ins|f es]; try reflexivity. destruct sv; try reflexivity. discriminate E.
    - destruct s as [q l e|outs sv ins|f es]; try exact I. destruct sv; try exact I. discriminate E. }
  destruct s as [q l e|outs sv ins|f es]; try (cbn [index_stmt] in H; injection H as <- <-; apply Same; auto).
  destruct sv as [| | | | | | | |k a b]; try (cbn [index_stmt] in H; injection H as <- <-; apply Same; auto). clear Same.
  cbn [index_stmt] in H. cbn [stmt_funs] in Hs. assert (Hk : In k all) by (apply Hs; left; reflexivity).
  destruct (lookup (hash k) (index_map st)) as [i|] eqn:L; injection H as <- <-.
  - split; [exact Hok|]. split; [exact Ht|]. split; [exists []; rewrite app_nil_r; split; [reflexivity|cbn; lia]|]. destruct (Hok _ _ L) as [k' [N E]].
    assert (X : (i < length (table st))%nat) by (apply nth_error_Some; rewrite N; discriminate). assert (k' = k) by (apply Hh; [apply Ht; eapply nth_error_In; exact N|exact Hk|exact E]). subst k'.
    split.
    + intros more. cbn [resolve]. rewrite Nat2Z.id. rewrite app_nth1 by exact X. rewrite (nth_error_nth _ _ _ N). reflexivity.
    + split; [cbn [refs_in]; lia|]. intros B [F1 [F2 [F3 [F4 F5]]]] HB LB. cbn [stmt_fits solver_fits] in *. destruct F3 as [_ F3]. split; [exact F1|]. split; [exact F2|]. split; [|split; assumption]. split; [unfold u64 in *; lia|exact F3].
  - cbn [table index_map]. split; [|split; [|split; [|split]]].
    + intros h i. cbn [table index_map lookup]. destruct (h =? hash k) eqn:E.
      * intros X. injection X as <-. apply Z.eqb_eq in E. exists k. split; [|symmetry; exact E]. rewrite nth_error_app2 by lia. rewrite Nat.sub_diag. reflexivity.
      * intros X. destruct (Hok _ _ X) as [k' [N E']]. exists k'. split; [|exact E']. rewrite nth_error_app1; [exact N|]. apply nth_error_Some. rewrite N. discriminate.
    + intros x X. apply in_app_or in X as [X|[<-|[]]]; [apply Ht; exact X|exact Hk].
    + exists [k]. split; [reflexivity|cbn; lia].
    + intros more. cbn [resolve]. rewrite Nat2Z.id. rewrite <- app_assoc, app_nth2 by lia. rewrite Nat.sub_diag. reflexivity.
    + split; [cbn [refs_in]; rewrite app_length; cbn [length]; lia|]. intros B [F1 [F2 [F3 [F4 F5]]]] HB LB. cbn [stmt_fits solver_fits] in *. destruct F3 as [_ F3]. split; [exact F1|]. split; [exact F2|]. split; [|split; assumption]. split; [|exact F3]. rewrite app_length in LB. cbn [length] in LB. unfold u64 in *. lia.
Qed.

Lemma index_stmts_spec : forall hash all, (forall a b, In a all -> In b all -> hash a = hash b -> a = b) -> forall ss st st' ss',
  incl (funs ss) all -> incl (table st) all -> idx_ok hash st -> index_stmts hash st ss = (st', ss') ->
  incl (table st') all /\ (exists more, table st' = table st ++ more /\ (length more <= length ss)%nat) /\
  (forall more, map (resolve (table st' ++ more)) ss' = ss) /\ Forall (refs_in (table st')) ss' /\ length ss' = length ss /\
  (Forall stmt_fits ss -> u64 (Z.of_nat (length (table st'))) -> Forall stmt_fits ss').
Proof.
  intros hash all Hh. induction ss as [|s ss IH]; intros st st' ss' Hs Ht Hok H; cbn [index_stmts] in H.
  - injection H as <- <-. split; [exact Ht|]. split; [exists []; rewrite app_nil_r; split; [reflexivity|cbn; lia]|]. split; [reflexivity|]. split; [constructor|]. split; [reflexivity|]. intros; constructor.
  - destruct (index_stmt hash st s) as [st1 s'] eqn:E. destruct (index_stmts hash st1 ss) as [st2 r'] eqn:E'. injection H as <- <-.
    cbn [funs flat_map] in Hs. apply incl_app_inv in Hs as [Hs1 Hs2].
    destruct (index_stmt_spec _ _ _ _ _ _ Hh Hs1 Ht Hok E) as [A1 [A2 [[m1 [A3 L1]] [A4 [A6 A5]]]]].
    destruct (IH _ _ _ Hs2 A2 A1 E') as [B2 [[m2 [B3 L2]] [B4 [B7 [B6 B5]]]]].
    split; [exact B2|]. split; [exists (m1 ++ m2); rewrite B3, A3, app_assoc; split; [reflexivity|rewrite app_length; cbn [length]; lia]|].
    split; [intros more; cbn [map]; rewrite B4; f_equal; rewrite B3, <- app_assoc; apply A4|].
    split; [constructor; [rewrite B3; apply refs_in_app; exact A6|exact B7]|]. split; [cbn [length]; lia|]. intros F U. inversion F as [|? ? F1 F2]; subst. constructor; [|apply B5; assumption].
    apply (A5 (Z.of_nat (length (table st2)))); [exact F1|exact U|]. rewrite B3, app_length. lia.
Qed.

Lemma index_program : forall hash ss st ss', collision_free hash ss -> index_stmts hash (mkIdx [] []) ss = (st, ss') ->
  incl (table st) (funs ss) /\ (length (table st) <= length ss)%nat /\ map (resolve (table st)) ss' = ss /\ Forall (refs_in (table st)) ss' /\ length ss' = length ss /\
  (Forall stmt_fits ss -> u64 (Z.of_nat (length (table st))) -> Forall stmt_fits ss').
Proof.
  intros hash ss st ss' Hc H. destruct (index_stmts_spec hash (funs ss) Hc ss (mkIdx [] []) st ss') as [A [[m [B L]] [C D]]]; [apply incl_refl|apply incl_nil_l|intros h i X; discriminate X|exact H|].
  split; [exact A|]. split; [rewrite B; exact L|]. split; [|exact D]. specialize (C []). rewrite app_nil_r in C. exact C.
Qed.

(** Running the program of references, resolved through the table, is running the program. interpreter/src/lib.rs:173-183 *)
Definition ext_of (ext : Z -> list F -> option (list F)) (tb : list Z) (i : Z) : list F -> option (list F) :=
  match nth_error tb (Z.to_nat i) with Some k => ext k | None => fun _ => None end.
Lemma exec_resolve : forall ext tb ss w log, Forall (refs_in tb) ss ->
  exec_stmts (exec_solver (ext_of ext tb)) w log ss = exec_stmts (exec_solver ext) w log (map (resolve tb) ss).
Proof.
  intros ext tb. induction ss as [|s ss IH]; intros w log H; [reflexivity|]. inversion H as [|? ? Hs Hr]; subst. cbn [map exec_stmts].
  destruct s as [q l e|outs sv ins|f es].
  - cbn [resolve]. destruct (is_assignee w l) as [v|]; [destruct (evaluate_quad w q); [apply IH; exact Hr|reflexivity]|].
    destruct (evaluate_quad w q) as [x|]; [|reflexivity]. destruct (evaluate_lin w l) as [y|]; [|reflexivity]. destruct (Feqb x y); [|reflexivity]. apply IH. exact Hr.
  - assert (E : forall xs, exec_solver (ext_of ext tb) sv xs = exec_solver ext (match sv with SExt i a b => SExt (nth (Z.to_nat i) tb 0) a b | _ => sv end) xs).
    { intros xs. destruct sv as [| | | | | | | |i a b]; try reflexivity. cbn [exec_solver]. cbn [refs_in] in Hs. unfold ext_of. destruct (nth_error tb (Z.to_nat i)) as [k|] eqn:N.
      - rewrite (nth_error_nth _ _ _ N). reflexivity.
      - apply nth_error_None in N. lia. }
    replace (resolve tb (Directive outs sv ins)) with (Directive outs (match sv with SExt i a b => SExt (nth (Z.to_nat i) tb 0) a b | _ => sv end) ins) by (destruct sv; reflexivity).
    destruct (opt_list (map (evaluate_quad w) ins)) as [xs|]; [|reflexivity]. rewrite E. destruct (exec_solver ext _ xs) as [res|]; [|reflexivity]. destruct (put_outputs w outs res); [|reflexivity]. apply IH. exact Hr.
  - cbn [resolve]. destruct (opt_list (map (evaluate_lin w) es)); [|reflexivity]. apply IH. exact Hr.
Qed.
Lemma exec_prog_resolve : forall ext tb args ss inputs, Forall (refs_in tb) ss ->
  exec_prog (exec_solver (ext_of ext tb)) args ss inputs = exec_prog (exec_solver ext) args (map (resolve tb) ss) inputs.
Proof. intros ext tb args ss inputs H. unfold exec_prog. destruct (Nat.eqb _ _); [|reflexivity]. apply exec_resolve. exact H. Qed.
End Index.

(** ** Streams *)
Lemma head_nonempty : forall mt n, (1 <= length (head mt n))%nat.
Proof. intros mt n. unfold head. repeat (match goal with |- context [if ?c then _ else _] => destruct c end; [cbn [length]; lia|]). cbn [length]. lia. Qed.
Lemma enc_nonempty : forall i, (1 <= length (enc i))%nat.
Proof. intros i. destruct i; cbn [enc]; rewrite ?app_length; match goal with |- context [head ?m ?n] => pose proof (head_nonempty m n) end; lia. Qed.
Lemma skipn_exact : forall (a b : list Z) n, n = length a -> skipn n (a ++ b) = b.
Proof. intros a b n ->. rewrite skipn_app, skipn_all, Nat.sub_diag. reflexivity. Qed.
Lemma app_split : forall (x y p q : list Z), x ++ y = p ++ q -> (length x <= length p)%nat -> exists r, p = x ++ r /\ y = r ++ q.
Proof.
  induction x as [|a x IH]; intros y p q E L; [exists p; split; [reflexivity|exact E]|]. destruct p as [|b p]; [cbn in L; lia|]. cbn [app] in E. injection E as <- E.
  destruct (IH y p q E) as [r [-> R]]; [cbn [length] in L; lia|]. exists r. split; [reflexivity|exact R].
Qed.

Section File.
Context {PF : PrimeField} (zir_item : Z -> item) (zir_of : item -> option Z).
Hypothesis Hcb : u64 (Z.of_nat canon_bytes).

Lemma stream_app : forall ss tail fuel, Forall stmt_fits ss -> (length ss < fuel)%nat -> (forall i rest, read_item tail = Some (i, rest) -> stmt_of i = None) ->
  stream fuel (flat_map (fun s => enc (stmt_item s)) ss ++ tail) = ss.
Proof.
  induction ss as [|s ss IH]; intros tail fuel H L T; (destruct fuel as [|fuel]; [lia|]); cbn [flat_map app stream].
  - destruct (read_item tail) as [[i rest]|] eqn:E; [|reflexivity]. rewrite (T _ _ eq_refl). reflexivity.
  - inversion H as [|? ? Hs Hr]; subst. rewrite <- app_assoc. rewrite read_item_app; [|apply stmt_wf; assumption|apply (nested_mono _ 8); [lia|apply stmt_nested]].
    rewrite stmt_rt by exact Hs. rewrite IH; [reflexivity|exact Hr|cbn [length] in L; lia|exact T].
Qed.
(** the fuel of [stream] is enough for every input *)
Lemma read_item_shorter : forall bs i rest, read_item bs = Some (i, rest) -> (length rest < length bs)%nat.
Proof.
  assert (RE : forall n bs l rest, read_exact n bs = Some (l, rest) -> (length rest <= length bs)%nat).
  { intros n bs l rest H. destruct (read_exact_inv _ _ _ _ H) as [-> _]. rewrite app_length. lia. }
  assert (BE : forall n bs l rest, read_be n bs = Some (l, rest) -> (length rest <= length bs)%nat).
  { intros n bs l rest H. unfold read_be, rbind in H. destruct (read_exact n bs) as [[x r]|] eqn:E; [|discriminate H]. unfold rret in H. injection H as _ <-. eapply RE. exact E. }
  assert (RH : forall bs h rest, read_head bs = Some (h, rest) -> (length rest < length bs)%nat).
  { intros bs h rest H. unfold read_head, rbind at 1 in H. destruct bs as [|b bs]; [discriminate H|]. cbn [read_byte] in H. cbv zeta in H. cbn [length].
    assert (Y : forall n (mt : Z), rbind (read_be n) (fun x => rret (mt, x)) bs = Some (h, rest) -> (length rest < S (length bs))%nat).
    { intros n mt X. unfold rbind in X. destruct (read_be n bs) as [[x r]|] eqn:E; [|discriminate X]. unfold rret in X. injection X as _ <-. specialize (BE _ _ _ _ E). lia. }
    destruct (b mod 32 <? 24); [unfold rret in H; injection H as _ <-; lia|]. destruct (b mod 32 =? 24); [eapply Y; exact H|]. destruct (b mod 32 =? 25); [eapply Y; exact H|].
    destruct (b mod 32 =? 26); [eapply Y; exact H|]. destruct (b mod 32 =? 27); [eapply Y; exact H|discriminate H]. }
  assert (D : forall d bs i rest, dec d bs = Some (i, rest) -> (length rest < length bs)%nat).
  { induction d as [d IH] using (well_founded_induction Wf_nat.lt_wf). intros bs i rest H. rewrite dec_eq in H. unfold rbind at 1 in H. destruct (read_head bs) as [[[mt n] r]|] eqn:E; [|discriminate H]. specialize (RH _ _ _ E).
    assert (Le : (length rest <= length r)%nat); [|lia].
    assert (Rp : forall A (rd : reader A) k b l r', (forall bs a rest, rd bs = Some (a, rest) -> (length rest <= length bs)%nat) -> reps rd k b = Some (l, r') -> (length r' <= length b)%nat).
    { intros A rd. induction k as [|k IHk]; intros b l r' Hr X; cbn [reps] in X; [unfold rret in X; injection X as _ <-; lia|]. unfold rbind at 1 in X. destruct (rd b) as [[a b1]|] eqn:E1; [|discriminate X]. unfold rbind in X. destruct (reps rd k b1) as [[l2 b2]|] eqn:E2; [|discriminate X]. unfold rret in X. injection X as _ <-. specialize (Hr _ _ _ E1) as Q1. specialize (IHk _ _ _ Hr E2). lia. }
    assert (Rr : forall A (rd : reader A) (f : A -> item) b, (forall a r', rd b = Some (a, r') -> (length r' <= length b)%nat) -> rbind rd (fun l => rret (f l)) b = Some (i, rest) -> (length rest <= length b)%nat).
    { intros A rd f b Hr X. unfold rbind in X. destruct (rd b) as [[a r']|]; [|discriminate X]. unfold rret in X. injection X as _ <-. eapply Hr. reflexivity. }
    unfold dec_body in H. assert (Rt : forall x, rret x r = Some (i, rest) -> (length rest <= length r)%nat) by (intros x X; unfold rret in X; injection X as _ <-; lia).
    destruct (mt =? 0); [eapply Rt; exact H|]. destruct (mt =? 1); [eapply Rt; exact H|].
    destruct (mt =? 2); [eapply Rr; [|exact H]; intros a r' X; eapply RE; exact X|]. destruct (mt =? 3); [eapply Rr; [|exact H]; intros a r' X; eapply RE; exact X|].
    destruct (mt =? 4). { destruct d as [|[|d]]; try discriminate H. eapply Rr; [|exact H]. intros a r' X. eapply Rp; [|exact X]. intros b a' r0 Y. apply IH in Y; lia. }
    destruct (mt =? 5). { destruct d as [|[|d]]; try discriminate H. eapply Rr; [|exact H]. intros a r' X. eapply Rp; [|exact X]. intros b a' r0 Y. unfold rbind at 1 in Y. destruct (dec (S d) b) as [[k b1]|] eqn:K; [|discriminate Y]. unfold rbind in Y. destruct (dec (S d) b1) as [[v b2]|] eqn:V; [|discriminate Y]. unfold rret in Y. injection Y as _ <-. apply IH in K; [|lia]. apply IH in V; lia. }
    destruct (mt =? 7); [|discriminate H]. destruct (n =? 20); [eapply Rt; exact H|]. destruct (n =? 21); [eapply Rt; exact H|]. destruct (n =? 22); [eapply Rt; exact H|discriminate H]. }
  exact (D 128%nat).
Qed.
Lemma stream_fuel : forall fuel fuel' bs, (length bs < fuel)%nat -> (length bs < fuel')%nat -> stream fuel bs = stream fuel' bs.
Proof.
  induction fuel as [|fuel IH]; intros fuel' bs H H'; [lia|]. destruct fuel' as [|fuel']; [lia|]. cbn [stream]. destruct (read_item bs) as [[i rest]|] eqn:E; [|reflexivity].
  apply read_item_shorter in E. destruct (stmt_of i); [|reflexivity]. f_equal. apply IH; lia.
Qed.

Lemma table_not_stmt : forall tb, @stmt_of PF (table_item zir_item tb) = None.
Proof. intros [|a [|b [|c tb]]]; reflexivity. Qed.
Definition zir_ok (k : Z) : Prop := zir_of (zir_item k) = Some k /\ wf_item (zir_item k) /\ nested 125 (zir_item k).
Lemma table_rt : forall tb, Forall zir_ok tb -> table_of zir_of (table_item zir_item tb) = Some tb.
Proof.
  intros tb H. unfold table_of, table_item. rewrite (of_arr_map _ _ _ _ (fun k => k)); [rewrite map_id; reflexivity|]. intros k K. cbn [variant key]. rewrite listZ_eqb_refl. rewrite Forall_forall in H. destruct (H k K) as [X _]. exact X.
Qed.
Lemma table_wf : forall tb, Forall zir_ok tb -> u64 (Z.of_nat (length tb)) -> wf_item (table_item zir_item tb).
Proof. intros tb H L. unfold table_item. apply arr_wf; [exact L|]. eapply Forall_impl; [|exact H]. intros k [_ [W _]]. apply variant_wf; [cbn; lia|exact W]. Qed.
Lemma table_nested : forall tb, Forall zir_ok tb -> nested 127 (table_item zir_item tb).
Proof. intros tb H. unfold table_item. apply arr_nested. eapply Forall_impl; [|exact H]. intros k [_ [_ N]]. apply variant_nested. exact N. Qed.

(** ** The file *)
Definition args_fit (args : list param) : Prop := u64 (Z.of_nat (length args)) /\ Forall (fun a => isize_ok (pid a)) args.
Lemma file_header : forall hash c args ret ss mods st ss', index_stmts hash (mkIdx [] []) ss = (st, ss') ->
  let f := file_of zir_item hash (field_id (modulus c)) args ret ss mods in
  let s1 := enc (IArr (map param_item args)) in let s2 := flat_map (fun s => enc (stmt_item s)) ss' in
  let s3 := enc (table_item zir_item (table st)) in let s4 := enc (modules_item mods) in
  u64 (Z.of_nat (length f)) -> exists h pre, identify f = inl (h, c) /\ header_ok h /\ f = write_header h ++ repeat 0 20 ++ s1 ++ s2 ++ s3 ++ s4 /\ length pre = 120%nat /\ f = pre ++ s1 ++ s2 ++ s3 ++ s4 /\ hret h = Z.of_nat ret mod 2 ^ 32 /\ hcount h = Z.of_nat (length (filter is_constraint ss)) mod 2 ^ 32 /\ soff (hparams h) = 120 /\ soff (hcons h) = 120 + mklen s1 /\ soff (hsolvers h) = 120 + mklen s1 + mklen s2 /\ soff (hmodules h) = 120 + mklen s1 + mklen s2 + mklen s3.
Proof.
  intros hash c args ret ss mods st ss' E f s1 s2 s3 s4 L. assert (Ef : f = file_of zir_item hash (field_id (modulus c)) args ret ss mods) by reflexivity. clearbody f. unfold file_of in Ef. rewrite E in Ef. cbv zeta in Ef. fold s1 s2 s3 s4 in Ef. change (Z.of_nat reserved) with 120 in Ef.
  match type of Ef with _ = write_header ?H ++ _ => set (h := H) in Ef end. exists h, (write_header h ++ repeat 0 20).
  assert (U : forall k, 0 <= k <= 120 + Z.of_nat (length s1 + length s2 + length s3 + length s4) -> u64 k).
  { intros k K. unfold u64 in *. assert (X : (length f = length (write_header h) + (120 - length (write_header h)) + (length s1 + (length s2 + (length s3 + length s4))))%nat) by (rewrite Ef, !app_length, repeat_length; unfold reserved; lia). lia. }
  assert (Hok : header_ok h).
  { unfold header_ok, h, section_ok. cbn [hmagic hversion hcurve hcount hret hparams hcons hsolvers hmodules sty soff slen].
    split; [reflexivity|]. split; [reflexivity|]. split; [apply ids_length|]. split; [apply Z.mod_pos_bound; lia|]. split; [apply Z.mod_pos_bound; lia|]. unfold mklen.
    assert (T : forall t a b, 1 <= t <= 4 -> u64 a -> u64 b -> 1 <= t <= 4 /\ u64 a /\ u64 b) by auto.
    split; [apply T; [lia| |]; apply U; lia|]. split; [apply T; [lia| |]; apply U; lia|]. split; [apply T; [lia| |]; apply U; lia|]. apply T; [lia| |]; apply U; lia. }
  assert (F : f = write_header h ++ repeat 0 20 ++ s1 ++ s2 ++ s3 ++ s4).
  { rewrite Ef, (write_header_length _ Hok). reflexivity. }
  split; [|split; [exact Hok|split; [exact F|split; [rewrite app_length, repeat_length, (write_header_length _ Hok); reflexivity|split; [rewrite <- !app_assoc; exact F|split; [reflexivity|split; [reflexivity|split; [reflexivity|split; [reflexivity|split; reflexivity]]]]]]]]].
  rewrite F. eapply identify_intro; [apply read_header_app; exact Hok|reflexivity|reflexivity|reflexivity].
Qed.

Lemma file_roundtrip : forall hash c args ret ss mods st ss', index_stmts hash (mkIdx [] []) ss = (st, ss') ->
  args_fit args -> Forall stmt_fits ss' -> modules_fit mods -> Forall zir_ok (table st) -> u64 (Z.of_nat (length (table st))) -> Z.of_nat ret < 2 ^ 32 ->
  let f := file_of zir_item hash (field_id (modulus c)) args ret ss mods in u64 (Z.of_nat (length f)) ->
  exists h, identify f = inl (h, c) /\ hcount h = Z.of_nat (length (filter is_constraint ss)) mod 2 ^ 32 /\ read_prog zir_of h f = Some (mkLoaded (mkProg args ret (map Single ss')) (table st) mods).
Proof.
  intros hash c args ret ss mods st ss' E [A1 A2] Hs [M1 M2] Hz Lz Hr f L. destruct (file_header hash c args ret ss mods st ss' E L) as [h [pre [I1 [_ [_ [P [F [R [HC [O1 [O2 [O3 O4]]]]]]]]]]]]. fold f in I1, F.
  exists h. split; [exact I1|]. split; [exact HC|]. set (s1 := enc (IArr (map param_item args))) in *. set (s2 := flat_map (fun s => enc (stmt_item s)) ss') in *. set (s3 := enc (table_item zir_item (table st))) in *. set (s4 := enc (modules_item mods)) in *.
  unfold mklen in *.
  assert (B1 : skipn (Z.to_nat (soff (hparams h))) f = s1 ++ s2 ++ s3 ++ s4) by (rewrite F; apply skipn_exact; lia).
  assert (B2 : skipn (Z.to_nat (soff (hcons h))) f = s2 ++ s3 ++ s4) by (rewrite F, (app_assoc pre); apply skipn_exact; rewrite app_length; lia).
  assert (B3 : skipn (Z.to_nat (soff (hsolvers h))) f = s3 ++ s4) by (rewrite F, (app_assoc pre), (app_assoc (pre ++ s1)); apply skipn_exact; rewrite !app_length; lia).
  assert (B4 : skipn (Z.to_nat (soff (hmodules h))) f = s4 ++ []) by (rewrite app_nil_r, F, (app_assoc pre), (app_assoc (pre ++ s1)), (app_assoc ((pre ++ s1) ++ s2)); apply skipn_exact; rewrite !app_length; lia).
  unfold read_prog, at_. rewrite B1, B2, B3, B4.
  unfold s1 at 1. rewrite read_item_app; [|apply arr_wf; [exact A1|eapply Forall_impl; [|exact A2]; intros a X; apply param_wf; exact X]|apply (nested_mono _ 3); [lia|]; apply arr_nested; apply Forall_forall; intros a _; apply param_nested].
  rewrite (of_arr_map _ _ _ _ (fun t => t)), map_id by (intros a X; apply param_rt; rewrite Forall_forall in A2; apply A2; exact X).
  unfold s3 at 1. rewrite read_item_app; [|apply table_wf; assumption|apply table_nested; assumption]. rewrite table_rt by exact Hz.
  unfold s4 at 1. rewrite read_item_app; [|apply modules_wf; split; assumption|apply (nested_mono _ 2); [lia|apply modules_nested]]. rewrite modules_rt.
  cbv zeta. unfold s2 at 2. rewrite stream_app; [| exact Hs| |].
  - rewrite R. rewrite Z.mod_small by lia. rewrite Nat2Z.id. reflexivity.
  - rewrite app_length. assert (length ss' <= length s2)%nat; [|lia]. unfold s2. clear. induction ss' as [|s ss' IH]; [cbn; lia|]. cbn [flat_map length]. rewrite app_length. pose proof (enc_nonempty (stmt_item s)). lia.
  - intros i rest X. unfold s3 at 1 in X. rewrite read_item_app in X; [|apply table_wf; assumption|apply table_nested; assumption]. injection X as <- _. apply table_not_stmt.
Qed.

(** every strict prefix is rejected, over whatever field it is read *)
Lemma file_truncated : forall hash c args ret ss mods pre suf, modules_fit mods ->
  let f := file_of zir_item hash (field_id (modulus c)) args ret ss mods in u64 (Z.of_nat (length f)) -> f = pre ++ suf -> suf <> [] ->
  forall h c', identify pre = inl (h, c') -> forall (PF' : PrimeField) zo, @read_prog PF' zo h pre = None.
Proof.
  intros hash c args ret ss mods pre suf Hm f L E Hn h c' I1 PF' zo. destruct (index_stmts hash (mkIdx [] []) ss) as [st ss'] eqn:Ei.
  destruct (file_header hash c args ret ss mods st ss' Ei L) as [h0 [p0 [I0 [Hok [F0 [P [F [R [HC [O1 [O2 [O3 O4]]]]]]]]]]]]. fold f in I0, F, F0.
  destruct (identify_inv _ _ _ I1) as [rest [H1 _]]. pose proof (stable_read_header _ _ _ suf H1) as H2. rewrite <- E, F0, read_header_app in H2 by exact Hok. injection H2 as H2 _. subst h0.
  unfold read_prog. assert (X : at_ modules_of pre (hmodules h) = None).
  { unfold at_. set (s1 := enc (IArr (map param_item args))) in *. set (s2 := flat_map (fun s => enc (stmt_item s)) ss') in *. set (s3 := enc (table_item zir_item (table st))) in *. unfold mklen in *.
    set (x := ((p0 ++ s1) ++ s2) ++ s3). assert (F' : x ++ enc (modules_item mods) = pre ++ suf) by (unfold x; rewrite <- !app_assoc, <- F; exact E).
    assert (Lx : Z.to_nat (soff (hmodules h)) = length x) by (unfold x; rewrite !app_length; lia). rewrite Lx.
    destruct (Nat.le_gt_cases (length x) (length pre)) as [G|G].
    - destruct (app_split _ _ _ _ F' G) as [r [Pr S4]]. rewrite Pr, skipn_exact by reflexivity.
      assert (Q : read_item r = None); [|rewrite Q; reflexivity]. eapply prefix_rejected; [apply stable_read_item| |exact S4|exact Hn].
      rewrite <- (app_nil_r (enc _)). apply read_item_app; [apply modules_wf; exact Hm|apply (nested_mono _ 2); [lia|apply modules_nested]].
    - rewrite skipn_all2 by lia. rewrite read_item_nil. reflexivity. }
  rewrite X. destruct (at_ _ pre (hparams h)); [|reflexivity]. destruct (at_ _ pre (hsolvers h)); reflexivity.
Qed.
End File.
