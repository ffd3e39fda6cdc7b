(** Proofs about program files. *)
From Coq Require Import String.
From Coq Require Import ZArith List Bool Lia.
From Verif Require Import PField SMap IR IRSpec Interp InterpProofs Optimizer Bytes WitnessIO Cbor Sha256 ProgIO.
Import ListNotations.
Open Scope Z_scope.

Lemma listZ_eqb_refl : forall l, listZ_eqb l l = true.
Proof. induction l as [|x l IH]; [reflexivity|]. cbn. rewrite Z.eqb_refl. exact IH. Qed.
Lemma listZ_eqb_eq : forall a b, listZ_eqb a b = true -> a = b.
Proof.
  induction a as [|x a IH]; intros [|y b] H; try discriminate H; [reflexivity|]. cbn in H. apply andb_true_iff in H as [A B]. apply Z.eqb_eq in A. rewrite A, (IH b B). reflexivity.
Qed.

(** ** Header *)
Definition section_ok (s : section) : Prop := 1 <= sty s <= 4 /\ u64 (soff s) /\ u64 (slen s).
Definition header_ok (h : header) : Prop :=
  length (hmagic h) = 4%nat /\ length (hversion h) = 4%nat /\ length (hcurve h) = 4%nat /\ 0 <= hcount h < 2 ^ 32 /\ 0 <= hret h < 2 ^ 32 /\
  section_ok (hparams h) /\ section_ok (hcons h) /\ section_ok (hsolvers h) /\ section_ok (hmodules h).
Lemma read_section_app : forall s rest, section_ok s -> read_section (write_section s ++ rest) = Some (s, rest).
Proof.
  intros [t o l] rest [A [B C]]. cbn [sty soff slen] in *. unfold read_section, write_section. cbn [sty soff slen]. rewrite <- !app_assoc. unfold rbind at 1. rewrite read_le_app by (change (256 ^ Z.of_nat 4) with (2 ^ 32); lia).
  replace (1 <=? t) with true by (symmetry; apply Z.leb_le; lia). replace (t <=? 4) with true by (symmetry; apply Z.leb_le; lia). cbn [andb].
  unfold rbind at 1. rewrite read_le_app by exact B. unfold rbind. rewrite read_le_app by exact C. reflexivity.
Qed.
Lemma stable_read_section : stable read_section.
Proof.
  apply stable_bind; [apply stable_read_le|]. intros t. destruct ((1 <=? t) && (t <=? 4)); [|apply stable_fail].
  apply stable_bind; [apply stable_read_le|]. intros o. apply stable_bind; [apply stable_read_le|]. intros; apply stable_ret.
Qed.
Lemma read_header_app : forall h rest, header_ok h -> read_header (write_header h ++ rest) = Some (h, rest).
Proof.
  intros [m v c cc rc s1 s2 s3 s4] rest [A [B [C [D [E [S1 [S2 [S3 S4]]]]]]]]. cbn [hmagic hversion hcurve hcount hret hparams hcons hsolvers hmodules] in *.
  unfold read_header, write_header. cbn [hmagic hversion hcurve hcount hret hparams hcons hsolvers hmodules]. rewrite <- !app_assoc.
  unfold rbind at 1. rewrite read_exact_app by exact A. unfold rbind at 1. rewrite read_exact_app by exact B. unfold rbind at 1. rewrite read_exact_app by exact C.
  unfold rbind at 1. rewrite read_le_app by exact D. unfold rbind at 1. rewrite read_le_app by exact E.
  unfold rbind at 1. rewrite read_section_app by exact S1. unfold rbind at 1. rewrite read_section_app by exact S2. unfold rbind at 1. rewrite read_section_app by exact S3.
  unfold rbind. rewrite read_section_app by exact S4. reflexivity.
Qed.
Lemma stable_read_header : stable read_header.
Proof.
  unfold read_header. repeat (apply stable_bind; [first [apply stable_read_exact|apply stable_read_le|apply stable_read_section]|intros ?]). apply stable_ret.
Qed.
Lemma write_header_length : forall h, header_ok h -> length (write_header h) = 100%nat.
Proof.
  intros h [A [B [C _]]]. unfold write_header, write_section. rewrite !app_length, !le_length, A, B, C. reflexivity.
Qed.

(** the six identifiers are four bytes and pairwise distinct *)
Lemma ids_length : forall c, length (field_id (modulus c)) = 4%nat.
Proof. intros []; vm_compute; reflexivity. Qed.
Definition find_curve (id : list Z) : option curve := find (fun c => listZ_eqb id (field_id (modulus c))) all_curves.
Lemma find_id : forall c, find_curve (field_id (modulus c)) = Some c.
Proof. intros []; vm_compute; reflexivity. Qed.
Lemma find_curve_inv : forall id c, find_curve id = Some c -> id = field_id (modulus c).
Proof. intros id c H. apply find_some in H as [_ H]. apply listZ_eqb_eq in H. exact H. Qed.
Lemma identify_inv : forall bs h c, identify bs = inl (h, c) ->
  exists rest, read_header bs = Some (h, rest) /\ hmagic h = zok_magic /\ hversion h = zok_version /\ hcurve h = field_id (modulus c).
Proof.
  intros bs h c H. unfold identify in H. destruct (read_header bs) as [[h' rest]|]; [|discriminate H].
  destruct (listZ_eqb (hmagic h') zok_magic) eqn:A; [|discriminate H]. destruct (listZ_eqb (hversion h') zok_version) eqn:B; [|discriminate H]. cbn [negb] in H.
  fold (find_curve (hcurve h')) in H. destruct (find_curve (hcurve h')) as [c'|] eqn:C; [|discriminate H]. injection H as <- <-. exists rest.
  split; [reflexivity|]. split; [apply listZ_eqb_eq; exact A|]. split; [apply listZ_eqb_eq; exact B|]. apply find_curve_inv. exact C.
Qed.
Lemma identify_intro : forall bs h c rest, read_header bs = Some (h, rest) -> hmagic h = zok_magic -> hversion h = zok_version -> hcurve h = field_id (modulus c) -> identify bs = inl (h, c).
Proof.
  intros bs h c rest R A B C. unfold identify. rewrite R, A, B. rewrite !listZ_eqb_refl. cbn [negb]. fold (find_curve (hcurve h)). rewrite C, find_id. reflexivity.
Qed.

(** ** Items *)
Lemma unfields_map : forall fs, unfields (map fst fs) (map (fun kv : string * item => (key (fst kv), snd kv)) fs) = Some (map snd fs).
Proof. induction fs as [|[k v] fs IH]; [reflexivity|]. cbn [map fst snd unfields key]. rewrite listZ_eqb_refl, IH. reflexivity. Qed.
Lemma unstruct_struct : forall fs ks, ks = map fst fs -> unstruct ks (struct fs) = Some (map snd fs).
Proof. intros fs ks ->. apply unfields_map. Qed.
Lemma of_arr_map : forall A B (f : item -> option A) (g : B -> item) (h : B -> A) l, (forall x, In x l -> f (g x) = Some (h x)) -> of_arr f (IArr (map g l)) = Some (map h l).
Proof.
  intros A B f g h l H. cbn [of_arr]. rewrite map_map. unfold all_some. induction l as [|x l IH]; [reflexivity|]. cbn [map opt_list]. rewrite H by (left; reflexivity).
  rewrite IH; [reflexivity|]. intros y Y. apply H. right. exact Y.
Qed.

(** keys and struct: nesting and sizes *)
Lemma key_wf : forall s, (String.length s < 1000)%nat -> wf_item (key s).
Proof.
  intros s H. cbn [key wf_item]. unfold txt. rewrite map_length. assert (E : length (list_ascii_of_string s) = String.length s) by (clear; induction s as [|c s IH]; cbn; [reflexivity|rewrite IH; reflexivity]). rewrite E. unfold u64. lia.
Qed.
Lemma struct_wf : forall fs, (length fs < 1000)%nat -> Forall (fun kv => (String.length (fst kv) < 1000)%nat /\ wf_item (snd kv)) fs -> wf_item (struct fs).
Proof.
  intros fs L H. unfold struct. apply wf_map. rewrite map_length. split; [unfold u64; lia|]. apply Forall_map. eapply Forall_impl; [|exact H]. intros [k v] [A B]. cbn [fst snd] in *. split; [apply key_wf; exact A|exact B].
Qed.
Lemma struct_nested : forall d fs, Forall (fun kv => nested d (snd kv)) fs -> nested (S d) (struct fs).
Proof.
  intros d fs H. unfold struct. apply nested_map. apply Forall_map. eapply Forall_impl; [|exact H]. intros [k v] B. cbn [fst snd] in *. split; [destruct d; exact I|exact B].
Qed.
Lemma variant_wf : forall s i, (String.length s < 1000)%nat -> wf_item i -> wf_item (variant s i).
Proof. intros s i L H. unfold variant. apply wf_map. split; [unfold u64; cbn; lia|]. constructor; [|constructor]. split; [apply key_wf; exact L|exact H]. Qed.
Lemma variant_nested : forall d s i, nested d i -> nested (S d) (variant s i).
Proof. intros d s i H. unfold variant. apply nested_map. constructor; [|constructor]. split; [destruct d; exact I|exact H]. Qed.
Lemma arr_wf : forall A (g : A -> item) l, u64 (Z.of_nat (length l)) -> Forall (fun x => wf_item (g x)) l -> wf_item (IArr (map g l)).
Proof. intros A g l L H. apply wf_arr. rewrite map_length. split; [exact L|]. apply Forall_map. exact H. Qed.
Lemma arr_nested : forall A d (g : A -> item) l, Forall (fun x => nested d (g x)) l -> nested (S d) (IArr (map g l)).
Proof. intros A d g l H. apply nested_arr. apply Forall_map. exact H. Qed.
Lemma iint_wf : forall v, isize_ok v -> wf_item (iint v).
Proof. intros v H. unfold isize_ok in H. unfold iint. destruct (v <? 0) eqn:E; cbn [wf_item]; unfold u64; [apply Z.ltb_lt in E|apply Z.ltb_ge in E]; lia. Qed.
Lemma of_isize_iint : forall v, isize_ok v -> of_isize (iint v) = Some v.
Proof.
  intros v H. unfold isize_ok in H. unfold iint. destruct (v <? 0) eqn:E; cbn [of_isize]; [apply Z.ltb_lt in E|apply Z.ltb_ge in E].
  - destruct (-1 - v <? 2 ^ 63) eqn:G; [f_equal; lia|apply Z.ltb_ge in G; lia].
  - destruct (v <? 2 ^ 63) eqn:G; [reflexivity|apply Z.ltb_ge in G; lia].
Qed.
Lemma nested_scalar : forall d i, match i with IArr _ | IMap _ => False | _ => True end -> nested d i.
Proof. intros d i H. destruct d, i; try exact I; destruct H. Qed.

Section Items.
Context {PF : PrimeField}.
Hypothesis Hcb : u64 (Z.of_nat canon_bytes).

(** sizes and ids that fit the machine integers *)
Definition lc_fits (l : lincomb) : Prop := u64 (Z.of_nat (length l)) /\ Forall (fun t => isize_ok (fst t)) l.
Definition q_fits (q : quadcomb) : Prop := lc_fits (qleft q) /\ lc_fits (qright q).
Definition solver_fits (s : solver) : Prop :=
  match s with SBits n => u64 (Z.of_nat n) | SExt k a b => u64 k /\ u64 (Z.of_nat a) /\ u64 (Z.of_nat b) | _ => True end.
Definition stmt_fits (s : stmt) : Prop :=
  match s with
  | Constraint q l e => q_fits q /\ lc_fits l /\ match e with Some k => u64 k | None => True end
  | Directive outs sv ins => u64 (Z.of_nat (length outs)) /\ Forall isize_ok outs /\ solver_fits sv /\ u64 (Z.of_nat (length ins)) /\ Forall q_fits ins
  | Log f es => u64 f /\ u64 (Z.of_nat (length es)) /\ Forall lc_fits es
  end.

Ltac flds := match goal with |- Forall _ [] => apply Forall_nil | |- Forall _ (_ :: _) => apply Forall_cons; [cbn [fst snd]; split; [cbn; lia|]|flds] end.

Lemma var_rt : forall v, isize_ok v -> var_of (var_item v) = Some v.
Proof. intros v H. unfold var_of, var_item. rewrite unstruct_struct by reflexivity. cbn [map snd]. apply of_isize_iint. exact H. Qed.
Lemma var_wf : forall v, isize_ok v -> wf_item (var_item v).
Proof. intros v H. apply struct_wf; [cbn; lia|]. flds. apply iint_wf. exact H. Qed.
Lemma var_nested : forall v, nested 1 (var_item v).
Proof. intros v. apply struct_nested. constructor; [|constructor]. apply nested_scalar. cbn [snd]. unfold iint. destruct (v <? 0); exact I. Qed.
Lemma field_rt : forall x, field_of (field_item x) = Some x.
Proof. intros x. unfold field_of, field_item. pose proof (read_le_app canon_bytes (fval x) [] (canon_fits x)) as R. rewrite app_nil_r in R. rewrite R. apply from_repr_fval. Qed.
Lemma field_wf : forall x, wf_item (field_item x).
Proof. intros x. cbn [field_item wf_item]. rewrite le_length. exact Hcb. Qed.
Lemma summand_rt : forall t, isize_ok (fst t) -> summand_of (summand_item t) = Some t.
Proof. intros [v x] H. cbn [fst] in H. unfold summand_of, summand_item. cbn [fst snd]. rewrite var_rt by exact H. rewrite field_rt. reflexivity. Qed.
Lemma summand_wf : forall t, isize_ok (fst t) -> wf_item (summand_item t).
Proof. intros [v x] H. cbn [fst] in H. unfold summand_item. apply wf_arr. split; [unfold u64; cbn; lia|]. constructor; [apply var_wf; exact H|]. constructor; [apply field_wf|constructor]. Qed.
Lemma summand_nested : forall t, nested 2 (summand_item t).
Proof. intros [v x]. unfold summand_item. apply nested_arr. constructor; [apply var_nested|]. constructor; [apply nested_scalar; exact I|constructor]. Qed.
Lemma lc_rt : forall l, lc_fits l -> lc_of (lc_item l) = Some l.
Proof.
  intros l [_ H]. unfold lc_of, lc_item. rewrite unstruct_struct by reflexivity. cbn [map snd].
  rewrite (of_arr_map _ _ _ _ (fun t => t)); [rewrite map_id; reflexivity|]. intros t T. apply summand_rt. rewrite Forall_forall in H. apply H. exact T.
Qed.
Lemma lc_wf : forall l, lc_fits l -> wf_item (lc_item l).
Proof. intros l [L H]. apply struct_wf; [cbn; lia|]. flds; [exact I|]. apply arr_wf; [exact L|]. eapply Forall_impl; [|exact H]. intros t T. apply summand_wf. exact T. Qed.
Lemma lc_nested : forall l, nested 4 (lc_item l).
Proof. intros l. apply struct_nested. constructor; [exact I|]. constructor; [|constructor]. cbn [snd]. apply arr_nested. apply Forall_forall. intros t _. apply summand_nested. Qed.
Lemma q_rt : forall q, q_fits q -> q_of (q_item q) = Some q.
Proof.
  intros [a b] [A B]. cbn [qleft qright] in *. unfold q_of, q_item. cbn [qleft qright]. rewrite unstruct_struct by reflexivity. cbn [map snd].
  rewrite !lc_rt by assumption. reflexivity.
Qed.
Lemma q_wf : forall q, q_fits q -> wf_item (q_item q).
Proof. intros q [A B]. apply struct_wf; [cbn; lia|]. flds; [exact I|apply lc_wf; exact A|apply lc_wf; exact B]. Qed.
Lemma q_nested : forall q, nested 5 (q_item q).
Proof. intros q. apply struct_nested. constructor; [exact I|]. constructor; [apply lc_nested|]. constructor; [apply lc_nested|constructor]. Qed.
Lemma solver_rt : forall s, solver_of (solver_item s) = Some s.
Proof. intros [| n | | | | | | |k a b]; try (vm_compute; reflexivity).
  - cbn [solver_item solver_of variant key]. change (listZ_eqb (txt "Bits") (txt "Bits")) with true. cbv iota. cbn [of_usize]. rewrite Nat2Z.id. reflexivity.
  - cbn [solver_item solver_of variant key]. change (listZ_eqb (txt "Ref") (txt "Bits")) with false. change (listZ_eqb (txt "Ref") (txt "Ref")) with true. cbv iota.
    rewrite unstruct_struct by reflexivity. cbn [map snd of_uint of_usize]. rewrite !Nat2Z.id. reflexivity.
Qed.
Lemma solver_wf : forall s, solver_fits s -> wf_item (solver_item s).
Proof.
  intros [| n | | | | | | |k a b] H; cbn [solver_item solver_fits] in *; try (apply key_wf; cbn; lia).
  - apply variant_wf; [cbn; lia|exact H].
  - destruct H as [K [A B]]. apply variant_wf; [cbn; lia|]. apply struct_wf; [cbn; lia|]. flds; [exact K|]. apply wf_arr. split; [unfold u64; cbn; lia|]. constructor; [exact A|]. constructor; [exact B|constructor].
Qed.
Lemma solver_nested : forall s, nested 3 (solver_item s).
Proof.
  intros [| n | | | | | | |k a b]; cbn [solver_item]; try exact I.
  - apply (nested_mono _ 1); [lia|]. apply variant_nested. exact I.
  - apply variant_nested. apply struct_nested. constructor; [exact I|]. constructor; [|constructor]. cbn [snd]. apply nested_arr. repeat constructor.
Qed.
Lemma var_list_rt : forall l, Forall isize_ok l -> of_arr var_of (IArr (map var_item l)) = Some l.
Proof. intros l H. rewrite (of_arr_map _ _ _ _ (fun t => t)); [rewrite map_id; reflexivity|]. intros t T. apply var_rt. rewrite Forall_forall in H. apply H. exact T. Qed.
Lemma q_list_rt : forall l, Forall q_fits l -> of_arr q_of (IArr (map q_item l)) = Some l.
Proof. intros l H. rewrite (of_arr_map _ _ _ _ (fun t => t)); [rewrite map_id; reflexivity|]. intros t T. apply q_rt. rewrite Forall_forall in H. apply H. exact T. Qed.
Lemma lc_list_rt : forall l, Forall lc_fits l -> of_arr lc_of (IArr (map lc_item l)) = Some l.
Proof. intros l H. rewrite (of_arr_map _ _ _ _ (fun t => t)); [rewrite map_id; reflexivity|]. intros t T. apply lc_rt. rewrite Forall_forall in H. apply H. exact T. Qed.

Lemma stmt_rt : forall s, stmt_fits s -> stmt_of (stmt_item s) = Some s.
Proof.
  intros [q l e|outs sv ins|f es] H; cbn [stmt_item stmt_of variant key]; unfold payload_of.
  - destruct H as [Hq [Hl He]]. change (listZ_eqb (txt "Constraint") (txt "Constraint")) with true. cbv iota.
    rewrite unstruct_struct by reflexivity. cbn [map snd]. rewrite q_rt, lc_rt by assumption.
    destruct e; reflexivity.
  - destruct H as [_ [Ho [_ [_ Hi]]]]. change (listZ_eqb (txt "Directive") (txt "Constraint")) with false. change (listZ_eqb (txt "Directive") (txt "Directive")) with true. cbv iota.
    rewrite unstruct_struct by reflexivity. cbn [map snd].
    rewrite q_list_rt, var_list_rt by assumption. rewrite solver_rt. reflexivity.
  - destruct H as [_ [_ He]]. change (listZ_eqb (txt "Log") (txt "Constraint")) with false. change (listZ_eqb (txt "Log") (txt "Directive")) with false. change (listZ_eqb (txt "Log") (txt "Log")) with true. cbv iota.
    rewrite unstruct_struct by reflexivity. cbn [map snd of_uint]. rewrite lc_list_rt by assumption. reflexivity.
Qed.
Lemma stmt_wf : forall s, stmt_fits s -> wf_item (stmt_item s).
Proof.
  intros [q l e|outs sv ins|f es] H; cbn [stmt_item]; apply variant_wf; try (cbn; lia); (apply struct_wf; [cbn; lia|]).
  - destruct H as [Hq [Hl He]]. flds; [exact I|apply q_wf; exact Hq|apply lc_wf; exact Hl|destruct e; exact He].
  - destruct H as [L1 [Ho [Hs [L2 Hi]]]]. flds; [exact I| | |apply solver_wf; exact Hs].
    + apply arr_wf; [exact L2|]. eapply Forall_impl; [|exact Hi]. intros x X. apply q_wf. exact X.
    + apply arr_wf; [exact L1|]. eapply Forall_impl; [|exact Ho]. intros x X. apply var_wf. exact X.
  - destruct H as [Hf [L He]]. flds; [exact I|exact Hf|]. apply arr_wf; [exact L|]. eapply Forall_impl; [|exact He]. intros x X. apply lc_wf. exact X.
Qed.
Lemma stmt_nested : forall s, nested 8 (stmt_item s).
Proof.
  intros [q l e|outs sv ins|f es]; cbn [stmt_item]; apply variant_nested; apply struct_nested.
  - constructor; [exact I|]. constructor; [apply (nested_mono _ 5); [lia|apply q_nested]|]. constructor; [apply (nested_mono _ 4); [lia|apply lc_nested]|]. constructor; [|constructor]. destruct e; exact I.
  - constructor; [exact I|]. constructor; [cbn [snd]; apply arr_nested; apply Forall_forall; intros x _; apply q_nested|].
    constructor; [cbn [snd]; apply arr_nested; apply Forall_forall; intros x _; apply (nested_mono _ 1); [lia|apply var_nested]|]. constructor; [apply (nested_mono _ 3); [lia|apply solver_nested]|constructor].
  - constructor; [exact I|]. constructor; [exact I|]. constructor; [|constructor]. cbn [snd]. apply arr_nested; apply Forall_forall; intros x _. apply (nested_mono _ 4); [lia|apply lc_nested].
Qed.
Lemma param_rt : forall p, isize_ok (pid p) -> param_of (param_item p) = Some p.
Proof.
  intros [v b] H. cbn [pid] in H. unfold param_of, param_item. cbn [pid pprivate]. rewrite unstruct_struct by reflexivity. cbn [map snd].
  rewrite var_rt by exact H. reflexivity.
Qed.
Lemma param_wf : forall p, isize_ok (pid p) -> wf_item (param_item p).
Proof. intros p H. apply struct_wf; [cbn; lia|]. flds; [exact I|apply var_wf; exact H|exact I]. Qed.
Lemma param_nested : forall p, nested 2 (param_item p).
Proof. intros p. apply struct_nested. constructor; [exact I|]. constructor; [apply var_nested|]. constructor; [exact I|constructor]. Qed.
End Items.

Definition modules_fit (m : list (Z * list Z)) : Prop := u64 (Z.of_nat (length m)) /\ Forall (fun kv => u64 (fst kv) /\ u64 (Z.of_nat (length (snd kv)))) m.
Lemma modules_rt : forall m, modules_of (modules_item m) = Some m.
Proof.
  intros m. unfold modules_of, modules_item. rewrite unstruct_struct by reflexivity. cbn [map snd]. rewrite map_map. unfold all_some.
  induction m as [|[k p] m IH]; [reflexivity|]. cbn [map opt_list fst snd]. rewrite IH. reflexivity.
Qed.
Lemma modules_wf : forall m, modules_fit m -> wf_item (modules_item m).
Proof.
  intros m [L H]. apply struct_wf; [cbn; lia|]. constructor; [|constructor]. cbn [fst snd]. split; [cbn; lia|]. apply wf_map. rewrite map_length. split; [exact L|]. apply Forall_map.
  eapply Forall_impl; [|exact H]. intros [k p] [A B]. split; [exact A|exact B].
Qed.
Lemma modules_nested : forall m, nested 2 (modules_item m).
Proof. intros m. apply struct_nested. constructor; [|constructor]. cbn [snd]. apply nested_map. apply Forall_map. apply Forall_forall. intros x _. split; exact I. Qed.
