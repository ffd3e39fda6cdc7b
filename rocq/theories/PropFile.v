(** C30, C31, C44, C45: program files. *)
From Coq Require Import String.
From Coq Require Import ZArith List Bool Lia.
From Verif Require Import PField SMap Concrete Primality IR IRSpec Interp InterpProofs Optimizer OptExtra OptPipeline CgEnd Bytes WitnessIO Cbor Sha256 ProgIO ProgIOProofs ProgFile.
Import ListNotations.
Open Scope Z_scope.

(** ** C30 *)
(** Reading back a written header gives the same header. *)
Theorem C30_header_roundtrip : forall h rest,
  length (hmagic h) = 4%nat -> length (hversion h) = 4%nat -> length (hcurve h) = 4%nat -> 0 <= hcount h < 2 ^ 32 -> 0 <= hret h < 2 ^ 32 ->
  (forall s, In s [hparams h; hcons h; hsolvers h; hmodules h] -> 1 <= sty s <= 4 /\ 0 <= soff s < 2 ^ 64 /\ 0 <= slen s < 2 ^ 64) ->
  read_header (write_header h ++ rest) = Some (h, rest).
Proof.
  intros h rest A B C D E S. apply read_header_app. unfold header_ok. repeat (split; [assumption|]).
  split; [apply S; left; reflexivity|]. split; [apply S; right; left; reflexivity|]. split; [apply S; right; right; left; reflexivity|]. apply S. right; right; right; left; reflexivity.
Qed.
Print Assumptions C30_header_roundtrip.
(** The identifiers of the six fields are distinct ... *)
Theorem C30_ids_distinct : forall c c', field_id (modulus c) = field_id (modulus c') -> c = c'.
Proof. intros c c' H. pose proof (find_id c) as A. rewrite H, find_id in A. injection A as ->. reflexivity. Qed.
(** ... so a program file is recognised as one over the field it was compiled for. *)
Theorem C30_field_recognised : forall (PF : PrimeField) zir_item hash (p : prog) mods f c, serialize zir_item hash p mods = Some f -> pp = modulus c ->
  Z.of_nat (length f) < 2 ^ 64 -> exists h, identify f = inl (h, c).
Proof.
  intros PF zi hash p mods f c H E L. unfold serialize in H. destruct (unblock (pstmts p)) as [ss|]; [|discriminate H]. injection H as <-. rewrite E in *.
  destruct (index_stmts hash (mkIdx [] []) ss) as [st ss'] eqn:Ei. destruct (file_header zi hash c (pargs p) (pret p) ss mods st ss' Ei) as [h [_ [X _]]]; [unfold u64; lia|]. exists h. exact X.
Qed.
Print Assumptions C30_field_recognised.
(** Conversely only files that start with the magic number, the version and the identifier of one of the six fields are read. *)
Theorem C30_foreign_rejected : forall bs h c, identify bs = inl (h, c) -> exists rest, bs = [90; 79; 75; 0] ++ [3; 0; 0; 0] ++ field_id (modulus c) ++ rest.
Proof.
  intros bs h c H. destruct (identify_inv _ _ _ H) as [rest [R [A [B C]]]]. unfold read_header in R.
  unfold rbind at 1 in R. destruct (read_exact 4 bs) as [[m r1]|] eqn:E1; [|discriminate R]. apply read_exact_inv in E1 as [-> _].
  unfold rbind at 1 in R. destruct (read_exact 4 r1) as [[v r2]|] eqn:E2; [|discriminate R]. apply read_exact_inv in E2 as [-> _].
  unfold rbind at 1 in R. destruct (read_exact 4 r2) as [[i r3]|] eqn:E3; [|discriminate R]. apply read_exact_inv in E3 as [-> _].
  assert (X : hmagic h = m /\ hversion h = v /\ hcurve h = i).
  { unfold rbind in R. repeat (match type of R with match ?t with _ => _ end = _ => destruct t as [[? ?]|]; [|discriminate R] end). unfold rret in R. injection R as <- _. repeat split. }
  destruct X as [X1 [X2 X3]]. exists r3. rewrite <- X1, <- X2, <- X3, A, B, C. reflexivity.
Qed.
Print Assumptions C30_foreign_rejected.
(** The name reported for a program over the field of the curve is that of the curve, except for pallas and vesta, which are reported as
    bls12_377 and bw6_761. *)
Theorem C30_reported_name_partial : forall c, c <> Pallas -> c <> Vesta -> reported_curve c = curve_name c.
Proof. intros [] A B; try reflexivity; [destruct (A eq_refl)|destruct (B eq_refl)]. Qed.
Theorem C30_reported_name_refuted : reported_curve Pallas <> curve_name Pallas /\ reported_curve Vesta <> curve_name Vesta.
Proof. split; discriminate. Qed.

(** ** C31 *)
(** No strict prefix of a program file is accepted: either the header is rejected, or reading the program fails (over any field). *)
Theorem C31_truncated : forall (PF : PrimeField) zir_item hash (p : prog) mods f c pre suf, serialize zir_item hash p mods = Some f -> pp = modulus c ->
  modules_fit mods -> Z.of_nat (length f) < 2 ^ 64 -> f = pre ++ suf -> suf <> [] ->
  forall h c', identify pre = inl (h, c') -> forall (PF' : PrimeField) zir_of, @read_prog PF' zir_of h pre = None.
Proof.
  intros PF zi hash p mods f c pre suf H E Hm L Ef Hn. unfold serialize in H. destruct (unblock (pstmts p)) as [ss|]; [|discriminate H]. injection H as <-. rewrite E in *.
  eapply (file_truncated zi hash c (pargs p) (pret p) ss mods pre suf Hm); [unfold u64; lia|exact Ef|exact Hn].
Qed.
Print Assumptions C31_truncated.

(** ** C44 *)
Lemma unblock_flat : forall (PF : PrimeField) (bs : list bstmt) ss, unblock bs = Some ss -> bs = map Single ss /\ flat_stmts bs = ss.
Proof.
  intros PF. induction bs as [|[s|b] bs IH]; intros ss H; cbn [unblock] in H; try discriminate H; [injection H as <-; split; reflexivity|].
  destruct (unblock bs) as [l|]; [|discriminate H]. injection H as <-. destruct (IH l eq_refl) as [-> F]. split; [reflexivity|]. change (s :: flat_stmts (map Single l) = s :: l). rewrite F. reflexivity.
Qed.
Definition prog_fits {PF : PrimeField} (p : prog) : Prop :=
  args_fit (pargs p) /\ Z.of_nat (pret p) < 2 ^ 32 /\ Forall stmt_fits (flat_stmts (pstmts p)).
(** What is read from a program file is the program: the same parameters and return count, and the same statements once the references are
    resolved through the solver table; so it runs as the program does. [zir_item], [zir_of]: the serialisation of the ZIR functions of the
    solver table, assumed readable (see C44_deep_solver_refuted); [hash]: the hash by which the table is indexed. *)
Theorem C44_roundtrip : forall (PF : PrimeField) zir_item zir_of hash (p : prog) mods f c, serialize zir_item hash p mods = Some f -> pp = modulus c ->
  prog_fits p -> modules_fit mods -> Z.of_nat (length f) < 2 ^ 64 ->
  collision_free hash (flat_stmts (pstmts p)) -> Forall (zir_ok zir_item zir_of) (funs (flat_stmts (pstmts p))) ->
  exists h q tb, identify f = inl (h, c) /\ read_prog zir_of h f = Some (mkLoaded q tb mods) /\
    pargs q = pargs p /\ pret q = pret p /\ map (resolve tb) (flat_stmts (pstmts q)) = flat_stmts (pstmts p) /\
    forall ext inputs, exec_prog (exec_solver (ext_of ext tb)) (pargs q) (flat_stmts (pstmts q)) inputs = exec_prog (exec_solver ext) (pargs p) (flat_stmts (pstmts p)) inputs.
Proof.
  intros PF zi zo hash p mods f c H E [Fa [Fr Fs]] Hm L Hc Hz. unfold serialize in H. destruct (unblock (pstmts p)) as [ss|] eqn:U; [|discriminate H]. injection H as <-.
  destruct (unblock_flat _ _ _ U) as [_ Fl]. rewrite Fl in *. destruct (index_stmts hash (mkIdx [] []) ss) as [st ss'] eqn:Ei.
  destruct (index_program hash ss st ss' Hc Ei) as [I1 [I2 [I3 [I4 [I5 I6]]]]].
  assert (Cb : u64 (Z.of_nat canon_bytes)) by (unfold canon_bytes, mod_bits; rewrite E; destruct c; vm_compute; split; congruence).
  assert (Ls : (length ss' <= length (file_of zi hash (field_id pp) (pargs p) (pret p) ss mods))%nat).
  { unfold file_of. rewrite Ei. cbv zeta. rewrite !app_length. assert (length ss' <= length (flat_map (fun s => enc (stmt_item s)) ss'))%nat; [|lia]. clear. induction ss' as [|s ss' IH]; [cbn; lia|]. cbn [flat_map length]. rewrite app_length. pose proof (enc_nonempty (stmt_item s)). lia. }
  assert (Lt : u64 (Z.of_nat (length (table st)))) by (unfold u64; lia).
  rewrite E in *.
  destruct (file_roundtrip zi zo Cb hash c (pargs p) (pret p) ss mods st ss' Ei Fa (I6 Fs Lt) Hm) as [h [A [_ B]]]; [|exact Lt|exact Fr|unfold u64; lia|].
  { apply Forall_forall. intros k K. rewrite Forall_forall in Hz. apply Hz. apply I1. exact K. }
  exists h, (mkProg (pargs p) (pret p) (map Single ss')), (table st). split; [exact A|]. split; [exact B|]. split; [reflexivity|]. split; [reflexivity|].
  cbn [pargs pstmts]. rewrite flat_singles. split; [exact I3|]. intros ext inputs. rewrite exec_prog_resolve by exact I4. rewrite I3. reflexivity.
Qed.
Print Assumptions C44_roundtrip.
(** Only programs without blocks can be written. *)
Theorem C44_blocks_rejected : forall (PF : PrimeField) zir_item hash (p : prog) mods, serialize zir_item hash p mods <> None <-> exists ss, pstmts p = map Single ss.
Proof.
  intros PF zi hash p mods. unfold serialize. destruct (unblock (pstmts p)) as [ss|] eqn:U.
  - destruct (unblock_flat _ _ _ U) as [E _]. split; [intros _; exists ss; exact E|discriminate].
  - split; [intros X; destruct (X eq_refl)|]. intros [ss E]. rewrite E in U. exfalso. clear E. induction ss as [|s ss IH]; cbn [map unblock] in U; [discriminate U|]. destruct (unblock (map Single ss)) as [l|]; [discriminate U|]. apply IH. reflexivity.
Qed.
(** When two functions have the same hash, the second is replaced by the first. *)
Theorem C44_hash_collision : forall (PF : PrimeField) (hash : Z -> Z) a b outs (i o : nat) ins, a <> b -> hash a = hash b ->
  let '(st, ss') := index_stmts hash (mkIdx [] []) [Directive outs (SExt a i o) ins; Directive outs (SExt b i o) ins] in
  map (resolve (table st)) ss' = [Directive outs (SExt a i o) ins; Directive outs (SExt a i o) ins].
Proof. intros PF hash a b outs i o ins N E. cbn [index_stmts index_stmt table index_map lookup]. rewrite <- E, Z.eqb_refl. reflexivity. Qed.

(** ** Examples over bn254 *)
Definition file_prog : @prog bn254 :=
  mkProg [mkParam 1 true; mkParam 2 false] 1 (map Single
    [Directive [3] (SExt 7 1 1) [q_of_lc [(1, f1)]];
     Directive [4] (SExt 8 1 1) [q_of_lc [(2, f1)]];
     Directive [5] (SExt 7 1 1) [q_of_lc [(4, f1)]];
     Constraint (mkQ [(1, f1)] [(2, f1)]) [(3, f1); (0, of_Z 5)] (Some 3);
     Constraint (mkQ [(3, f1)] [(4, f1)]) [(-1, f1)] None;
     Log 9 [[(5, f1)]]]).
Definition ex_zir (k : Z) : item := struct [("id"%string, IUint k)].
Definition ex_zir_of (i : item) : option Z := match unstruct ["id"%string] i with Some [IUint k] => Some k | _ => None end.
Definition ex_mods : list (Z * list Z) := [(5, txt "main.zok")].
Lemma ex_zir_ok : forall k, u64 k -> zir_ok ex_zir ex_zir_of k.
Proof.
  intros k K. split; [unfold ex_zir_of, ex_zir; rewrite unstruct_struct by reflexivity; reflexivity|]. split; [apply struct_wf; [cbn; lia|]; constructor; [|constructor]; cbn [fst snd]; split; [cbn; lia|exact K]|].
  apply (nested_mono _ 1); [lia|]. apply struct_nested. repeat constructor.
Qed.
Definition ex_file : list Z := match serialize ex_zir (fun k => k) file_prog ex_mods with Some f => f | None => [] end.
(** show a loaded program without field elements *)
Definition show_lc (l : @lincomb bn254) : list (Z * Z) := map (fun t => (fst t, fval (snd t))) l.
Inductive shown := ShC (a b c : list (Z * Z)) (e : option Z) | ShD (o : list Z) (s : solver) (i : list (list (Z * Z) * list (Z * Z))) | ShL (f : Z) (l : list (list (Z * Z))).
Definition show_stmt (s : @stmt bn254) : shown :=
  match s with
  | Constraint q l e => ShC (show_lc (qleft q)) (show_lc (qright q)) (show_lc l) e
  | Directive o s i => ShD o s (map (fun q => (show_lc (qleft q), show_lc (qright q))) i)
  | Log f l => ShL f (map show_lc l)
  end.
Definition show_file (bs : list Z) : option (string * Z * list Z * list shown * list Z) :=
  match identify bs with
  | inl (h, c) => match @read_prog bn254 ex_zir_of h bs with
                  | Some l => Some (curve_name c, hcount h, map pid (pargs (lprog l)), map show_stmt (flat_stmts (pstmts (lprog l))), ltable l)
                  | None => None
                  end
  | inr _ => None
  end.
Example C44_nonvacuous : serialize ex_zir (fun k => k) file_prog ex_mods = Some ex_file /\ (@pp bn254 = modulus Bn128) /\ prog_fits file_prog /\ modules_fit ex_mods /\
  Z.of_nat (length ex_file) < 2 ^ 64 /\ collision_free (fun k => k) (flat_stmts (pstmts file_prog)) /\ Forall (zir_ok ex_zir ex_zir_of) (funs (flat_stmts (pstmts file_prog))) /\
  show_file ex_file = Some ("bn128"%string, 2, [1; 2],
    [ShD [3] (SExt 0 1 1) [([(0, 1)], [(1, 1)])]; ShD [4] (SExt 1 1 1) [([(0, 1)], [(2, 1)])]; ShD [5] (SExt 0 1 1) [([(0, 1)], [(4, 1)])];
     ShC [(1, 1)] [(2, 1)] [(3, 1); (0, 5)] (Some 3); ShC [(3, 1)] [(4, 1)] [(-1, 1)] None; ShL 9 [[(5, 1)]]], [7; 8]).
Proof.
  assert (U : forall k, (0 <=? k) && (k <? 1000) = true -> u64 k) by (intros k K; apply andb_true_iff in K as [K1 K2]; apply Z.leb_le in K1; apply Z.ltb_lt in K2; unfold u64; lia).
  assert (V : forall k, (-1000 <=? k) && (k <? 1000) = true -> isize_ok k) by (intros k K; apply andb_true_iff in K as [K1 K2]; apply Z.leb_le in K1; apply Z.ltb_lt in K2; unfold isize_ok; lia).
  split; [reflexivity|]. split; [reflexivity|]. split; [|split; [|split; [|split; [|split]]]].
  - split; [split; [apply U; reflexivity|repeat (constructor; [apply V; reflexivity|]); constructor]|]. split; [cbn; lia|].
    repeat (constructor; [|]); try constructor; try (apply U; reflexivity); try (apply V; reflexivity); try exact I.
  - split; [apply U; reflexivity|]. constructor; [split; apply U; reflexivity|constructor].
  - vm_compute. reflexivity.
  - intros a b _ _ E. exact E.
  - repeat (constructor; [apply ex_zir_ok; apply U; reflexivity|]). constructor.
  - vm_compute. reflexivity.
Qed.
(** C31: the hypotheses hold of the same file; all its strict prefixes are rejected, those long enough to hold the header by the reader *)
Example C31_nonvacuous : (match identify (firstn 300 ex_file) with inl (h, c) => (curve_name c, match @read_prog bn254 ex_zir_of h (firstn 300 ex_file) with None => true | Some _ => false end) | inr _ => (EmptyString, false) end) = ("bn128"%string, true) /\
  identify (firstn 99 ex_file) = inr InvalidHeader.
Proof. split; vm_compute; reflexivity. Qed.
Example C30_nonvacuous : field_id (modulus Bn128) = [180; 247; 181; 189] /\ firstn 20 ex_file = [90; 79; 75; 0; 3; 0; 0; 0; 180; 247; 181; 189; 2; 0; 0; 0; 1; 0; 0; 0].
Proof. split; vm_compute; reflexivity. Qed.

(** The reader of a solver table fails when a function is nested too deeply, although the file is written without an error: the recursion limit
    of serde_cbor. Here the function is a term of nesting 200. *)
Definition deep_zir (k : Z) : item := IArr [IUint k; deep 200].
Definition deep_prog : @prog bn254 := mkProg [] 0 [Single (Directive [1] (SExt 7 0 1) [])].
Definition deep_file : list Z := match serialize deep_zir (fun k => k) deep_prog [] with Some f => f | None => [] end.
Theorem C44_deep_solver_refuted : exists (zir_item : Z -> item) (p : @prog bn254) f, serialize zir_item (fun k => k) p [] = Some f /\
  (forall k, u64 k -> wf_item (zir_item k)) /\ (forall k k', zir_item k = zir_item k' -> k = k') /\ Z.of_nat (length f) < 2 ^ 64 /\
  exists h, identify f = inl (h, Bn128) /\ forall zir_of, @read_prog bn254 zir_of h f = None.
Proof.
  assert (W : forall n, wf_item (deep n)). { induction n as [|n IH]; [exact I|]. cbn [deep]. apply wf_arr. split; [unfold u64; cbn; lia|constructor; [exact IH|constructor]]. }
  exists deep_zir, deep_prog, deep_file. split; [reflexivity|]. split; [|split; [|split]].
  - intros k K. unfold deep_zir. apply wf_arr. split; [unfold u64; cbn; lia|]. constructor; [exact K|]. constructor; [apply W|constructor].
  - intros k k' E. unfold deep_zir in E. injection E as ->. reflexivity.
  - vm_compute. reflexivity.
  - assert (C : (match identify deep_file with inl (h, Bn128) => match read_item (skipn (Z.to_nat (soff (hsolvers h))) deep_file) with None => true | Some _ => false end | _ => false end) = true) by (vm_compute; reflexivity).
    destruct (identify deep_file) as [[h []]|] eqn:E; try discriminate C. exists h. split; [reflexivity|]. intros zo. unfold read_prog. assert (X : at_ (table_of zo) deep_file (hsolvers h) = None).
    { unfold at_. destruct (read_item (skipn (Z.to_nat (soff (hsolvers h))) deep_file)); [discriminate C|reflexivity]. }
    rewrite X. destruct (at_ (of_arr param_of) deep_file (hparams h)); reflexivity.
Qed.
Print Assumptions C44_deep_solver_refuted.

(** ** C45 *)
(** The statements are read up to the first that cannot be read: the statements before it are the program's ... *)
Theorem C45_readable_prefix_partial : forall (PF : PrimeField) ss tail, u64 (Z.of_nat canon_bytes) -> Forall stmt_fits ss ->
  exists more, stream (S (length (flat_map (fun s => enc (stmt_item s)) ss ++ tail))) (flat_map (fun s => enc (stmt_item s)) ss ++ tail) = ss ++ more /\ more = stream (S (length tail)) tail.
Proof.
  intros PF ss tail Hc H. exists (stream (S (length tail)) tail). split; [|reflexivity].
  assert (G : forall ss fuel, Forall stmt_fits ss -> (length (flat_map (fun s => enc (stmt_item s)) ss ++ tail) < fuel)%nat ->
    stream fuel (flat_map (fun s => enc (stmt_item s)) ss ++ tail) = ss ++ stream (S (length tail)) tail).
  { clear ss H. induction ss as [|s ss IH]; intros fuel H L; cbn [flat_map app] in *; [apply stream_fuel; lia|]. destruct fuel as [|fuel]; [lia|]. inversion H as [|? ? Hs Hr]; subst. cbn [stream]. rewrite <- app_assoc in *.
    rewrite read_item_app; [|apply stmt_wf; assumption|apply (nested_mono _ 8); [lia|apply stmt_nested]]. rewrite stmt_rt by exact Hs.
    rewrite (IH fuel Hr); [reflexivity|]. rewrite app_length in L. pose proof (enc_nonempty (stmt_item s)). lia. }
  apply G; [exact H|lia].
Qed.
Print Assumptions C45_readable_prefix_partial.
(** ... but the others are dropped without an error, although the header says how many constraints there are: changing one byte of the file
    above gives a file that is read as a program with one constraint instead of two. *)
Fixpoint set_nth (n : nat) (x : Z) (l : list Z) : list Z := match n, l with O, _ :: r => x :: r | S k, y :: r => y :: set_nth k x r | _, [] => [] end.
Definition bad_pos : nat := (120 + length (enc (IArr (map param_item (pargs file_prog)))) + length (flat_map (fun s => enc (stmt_item s)) (firstn 4 (flat_stmts (pstmts file_prog)))))%nat.
Definition bad_file : list Z := set_nth bad_pos 255 ex_file.
Definition count_constraints (l : list shown) : nat := length (filter (fun s => match s with ShC _ _ _ _ => true | _ => false end) l).
Theorem C45_dropped_refuted : exists f f' i b, f' = set_nth i b f /\ 
  (match show_file f with Some (_, _, _, ss, _) => Some (count_constraints ss) | None => None end) = Some 2%nat /\
  (match show_file f' with Some (_, n, _, ss, _) => Some (n, count_constraints ss) | None => None end) = Some (2, 1%nat).
Proof. exists ex_file, bad_file, bad_pos, 255. split; [reflexivity|]. split; vm_compute; reflexivity. Qed.
Print Assumptions C45_dropped_refuted.
