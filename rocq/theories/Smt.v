(** Export of a constraint system to SMT-LIB: zokrates_ast/src/ir/smtlib2.rs, ir/visitor.rs l.44-110 (the variables that are declared),
    common/flat/variable.rs l.52-60 (their names), zokrates_cli/src/ops/generate_smtlib2.rs. *)
From Coq Require Import String Ascii.
From Coq Require Import ZArith NArith List Bool Lia FinFun.
From Verif Require Import PField SMap IR IRSpec Str Circom SmtSpec.
Import ListNotations.
Open Scope string_scope.
Open Scope list_scope.
Open Scope Z_scope.

Section Smt.
Context {PF : PrimeField}.
Add Ring Fsmt : F_ring_th.
Local Notation "a +++ b" := (String.append a b) (at level 60, right associativity).
Definition nl : string := String newline EmptyString.
Fixpoint cat (l : list string) : string := match l with [] => "" | s :: r => s +++ cat r end.

(** variable.rs l.52-60 *)
Definition show_var (v : var) : string :=
  if v =? 0 then "~one" else if 0 <? v then "_" +++ dec_string (v - 1) else "~out_" +++ dec_string (- (v + 1)).
(** smtlib2.rs l.141-145 *)
Definition smt_var (v : var) : string := "|" +++ show_var v +++ "|".
(** l.65-77 format_prefix_op_smtlib2 *)
Definition prefix_op (op a b : string) : string := "(" +++ op +++ " " +++ a +++ " " +++ b +++ ")".
(** l.115-139 LinComb; l.147-151 BigUint *)
Definition smt_term (t : var * F) : string := prefix_op "*" (smt_var (fst t)) (dec_string (fval (snd t))).
Definition smt_lin (l : lincomb) : string :=
  match l with
  | [] => "0"
  | [t] => smt_term t
  | l => "(+" +++ cat (map (fun t => " " +++ smt_term t) l) +++ ")"
  end.
(** l.109-113 QuadComb *)
Definition smt_quad (q : quadcomb) : string := prefix_op "*" (smt_lin (qleft q)) (smt_lin (qright q)).
(** l.79-107 Statement: [None] for unreachable!() on a block *)
Definition smt_stmt (b : bstmt) : option string :=
  match b with
  | Single (Constraint q l _) => Some ("(= (mod " +++ smt_quad q +++ " |~prime|) (mod " +++ smt_lin l +++ " |~prime|))")
  | Single (Directive _ _ _) | Single (Log _ _) => Some ""
  | Block _ => None
  end.
(** ir/visitor.rs l.44-110 with VariableCollector, and l.40 *)
Definition smt_vars (p : prog) : list var := set_of (map pid (pargs p) ++ flat_map stmt_vars (flat_stmts (pstmts p)) ++ [vone]).
Fixpoint smt_stmts (l : list bstmt) : option string :=
  match l with
  | [] => Some ""
  | b :: r => match smt_stmt b, smt_stmts r with Some s, Some t => Some (s +++ nl +++ t) | _, _ => None end
  end.
(** l.33-63 *)
Definition smt_prog (p : prog) : option string :=
  let vs := smt_vars p in
  match smt_stmts (pstmts p) with
  | Some body => Some (
      "; Auto generated by ZoKrates" +++ nl +++
      "; Number of circuit variables: " +++ dec_string (Z.of_nat (length vs)) +++ nl +++
      "; Number of equalities: " +++ dec_string (Z.of_nat (length (pstmts p))) +++ nl +++
      "(declare-const |~prime| Int)" +++ nl +++
      cat (map (fun v => "(declare-const " +++ smt_var v +++ " Int)" +++ nl) vs) +++
      "(assert (and" +++ nl +++
      "(= |~prime| " +++ dec_string pp +++ ")" +++ nl +++
      "(= |~one| 1)" +++ nl +++
      body +++ "))")
  | None => None
  end.

(** ** Reading the text back *)
Definition addt (ts : list tok) (l : option (list tok)) : option (list tok) := match l with Some l => Some (ts ++ l) | None => None end.
Lemma addt_app : forall a b l, addt (a ++ b) l = addt a (addt b l).
Proof. intros a b [l|]; cbn [addt]; [rewrite app_assoc|]; reflexivity. Qed.
Lemma push_addt : forall t l, push (Some t) l = addt [t] l.
Proof. intros t [l|]; reflexivity. Qed.
Lemma app_assoc_s : forall a b c : string, ((a +++ b) +++ c = a +++ (b +++ c)).
Proof. induction a as [|x a IH]; intros b c; [reflexivity|]. cbn [String.append]. rewrite IH. reflexivity. Qed.
(** a text that reads as [ts], whatever follows *)
Definition closed_txt (s : string) (ts : list tok) : Prop := forall r, lex MStart (s +++ r) = addt ts (lex MStart r).
(** a text that reads as [ts] before a space, a parenthesis or a new line *)
Definition open_txt (s : string) (ts : list tok) : Prop := forall c r, delim c = true -> lex MStart (s +++ String c r) = addt ts (lex MStart (String c r)).
Lemma closed_open : forall s ts, closed_txt s ts -> open_txt s ts.
Proof. intros s ts H c r _. apply H. Qed.
Lemma closed_app : forall a b ts us, closed_txt a ts -> closed_txt b us -> closed_txt (a +++ b) (ts ++ us).
Proof. intros a b ts us A B r. rewrite app_assoc_s, A, B, addt_app. reflexivity. Qed.
(** a word, then a delimiter *)
Lemma open_closed : forall a ts c b us, open_txt a ts -> delim c = true -> closed_txt (String c b) us -> closed_txt (a +++ String c b) (ts ++ us).
Proof. intros a ts c b us A D B r. rewrite app_assoc_s. cbn [String.append]. rewrite (A c (b +++ r) D). specialize (B r). cbn [String.append] in B. rewrite B, addt_app. reflexivity. Qed.

Lemma digit_delim : forall c d, digit 10 c = Some d -> delim c = false.
Proof.
  intros c d H. unfold digit in H. destruct c as [b0 b1 b2 b3 b4 b5 b6 b7]. destruct b0, b1, b2, b3, b4, b5, b6, b7; try (vm_compute; reflexivity); exfalso; vm_compute in H; discriminate H.
Qed.
Lemma digit_quote : forall c d, digit 10 c = Some d -> Ascii.eqb c "|"%char = false /\ Ascii.eqb c newline = false.
Proof. intros c d H. pose proof (digit_delim c d H) as D. unfold delim in D. repeat (apply orb_false_elim in D as [D ?]). split; assumption. Qed.
Lemma lex_word : forall s ds a c r, digits 10 s = Some ds -> delim c = true -> lex (MWord a) (s +++ String c r) = push (word (a +++ s)) (lex MStart (String c r)).
Proof.
  induction s as [|x s IH]; intros ds a c r H D.
  - cbn [String.append lex]. rewrite D. replace (a +++ EmptyString) with a by (induction a as [|y a IHa]; [reflexivity|cbn [String.append]; rewrite <- IHa; reflexivity]). reflexivity.
  - cbn [digits] in H. destruct (digit 10 x) as [d|] eqn:E; [|discriminate H]. destruct (digits 10 s) as [es|] eqn:Es; [|discriminate H]. cbn [String.append lex]. rewrite (digit_delim x d E). rewrite (IH es _ c r eq_refl D). unfold snoc. rewrite app_assoc_s. reflexivity.
Qed.
Lemma start_word : forall c r, delim c = false -> lex MStart (String c r) = lex (MWord (String c EmptyString)) r.
Proof. intros c r D. unfold delim in D. repeat (apply orb_false_elim in D as [D ?]). cbn [lex]. unfold start. rewrite D, H, H0, H1, H2, H3. reflexivity. Qed.
(** a decimal number is read as a numeral *)
Lemma num_txt : forall n, 0 <= n -> open_txt (dec_string n) [TNum n].
Proof.
  intros n Hn c r D. pose proof (dec_string_denotes n Hn) as [ds [Ne [Ed Ev]]]. pose proof (ark_dec n Hn) as A. apply ark_from_str_spec in A as [ds' [_ [Ed' [Hd _]]]]. rewrite Ed in Ed'. injection Ed' as <-.
  destruct (dec_string n) as [|x s] eqn:Es; [contradiction Ne; reflexivity|]. pose proof Ed as Ed0. cbn [digits] in Ed. destruct (digit 10 x) as [d|] eqn:E; [|discriminate Ed]. destruct (digits 10 s) as [es|] eqn:Ess; [|discriminate Ed]. injection Ed as <-.
  cbn [String.append]. rewrite (start_word x _ (digit_delim x d E)). rewrite (lex_word s es _ c r Ess D). cbn [String.append]. unfold word. rewrite Ed0. cbn [hd] in Hd.
  replace (match d :: es with [0] => Some (TNum 0) | 0 :: _ :: _ => None | [] => None | _ => Some (TNum (value 10 (d :: es))) end) with (Some (TNum n)).
  - apply push_addt.
  - rewrite <- Ev. destruct d as [|d|d]; [|reflexivity|reflexivity]. destruct es as [|e es]; [reflexivity|]. exfalso. destruct Hd as [Hd|Hd]; [apply Hd; reflexivity|]. injection Hd as _ ->. discriminate Ess.
Qed.
Lemma lex_comment : forall s ds r, digits 10 s = Some ds -> lex MComment (s +++ String newline r) = lex MStart r.
Proof.
  induction s as [|x s IH]; intros ds r H; [reflexivity|]. cbn [digits] in H. destruct (digit 10 x) as [d|] eqn:E; [|discriminate H]. destruct (digits 10 s) as [es|] eqn:Es; [|discriminate H]. cbn [String.append lex].
  rewrite (proj2 (digit_quote x d E)). exact (IH es r eq_refl).
Qed.
Lemma dec_digits : forall n, 0 <= n -> exists ds, digits 10 (dec_string n) = Some ds.
Proof. intros n H. destruct (dec_string_denotes n H) as [ds [_ [E _]]]. exists ds. exact E. Qed.
(** names *)
Lemma lex_quote : forall s ds a r, digits 10 s = Some ds -> lex (MQuote a) (s +++ String "|" r) = push (Some (TSym (a +++ s))) (lex MStart r).
Proof.
  induction s as [|x s IH]; intros ds a r H.
  - cbn [String.append lex]. replace (a +++ EmptyString) with a by (induction a as [|y a IHa]; [reflexivity|cbn [String.append]; rewrite <- IHa; reflexivity]). reflexivity.
  - cbn [digits] in H. destruct (digit 10 x) as [d|] eqn:E; [|discriminate H]. destruct (digits 10 s) as [es|] eqn:Es; [|discriminate H]. cbn [String.append lex]. rewrite (proj1 (digit_quote x d E)). rewrite (IH es _ r eq_refl). unfold snoc. rewrite app_assoc_s. reflexivity.
Qed.
Lemma var_txt : forall v, closed_txt (smt_var v) [TSym (show_var v)].
Proof.
  intros v r. unfold smt_var, show_var. destruct (v =? 0) eqn:E0; [cbn; apply push_addt|]. apply Z.eqb_neq in E0. destruct (0 <? v) eqn:E1; [apply Z.ltb_lt in E1|apply Z.ltb_ge in E1].
  - destruct (dec_digits (v - 1) ltac:(lia)) as [ds H]. rewrite !app_assoc_s. change (lex MStart ("|" +++ "_" +++ dec_string (v - 1) +++ "|" +++ r)) with (lex (MQuote "_") (dec_string (v - 1) +++ String "|" r)). rewrite (lex_quote _ ds _ r H). apply push_addt.
  - destruct (dec_digits (- (v + 1)) ltac:(lia)) as [ds H]. rewrite !app_assoc_s. change (lex MStart ("|" +++ "~out_" +++ dec_string (- (v + 1)) +++ "|" +++ r)) with (lex (MQuote "~out_") (dec_string (- (v + 1)) +++ String "|" r)). rewrite (lex_quote _ ds _ r H). apply push_addt.
Qed.
(** ** The S-expressions *)
Fixpoint toks (e : sx) : list tok :=
  match e with Num n => [TNum n] | Sym s => [TSym s] | Lst l => TOpen :: flat_map toks l ++ [TClose] end.
Lemma parse_toks : forall e a st r, parse (a :: st) (toks e ++ r) = parse ((e :: a) :: st) r.
Proof.
  fix IH 1. intros [n|s|l] a st r; [reflexivity|reflexivity|]. cbn [toks]. cbn [app parse]. rewrite <- app_assoc.
  assert (G : forall b, parse (b :: a :: st) (flat_map toks l ++ [TClose] ++ r) = parse ((Lst (rev b ++ l) :: a) :: st) r).
  { induction l as [|e l IHl]; intros b; [cbn [flat_map app parse]; rewrite app_nil_r; reflexivity|]. cbn [flat_map]. rewrite <- app_assoc, IH, IHl. cbn [rev]. rewrite <- app_assoc. reflexivity. }
  rewrite G. reflexivity.
Qed.
Definition sx_term (t : var * F) : sx := Lst [Sym "*"; Sym (show_var (fst t)); Num (fval (snd t))].
Definition sx_lin (l : lincomb) : sx := match l with [] => Num 0 | [t] => sx_term t | l => Lst (Sym "+" :: map sx_term l) end.
Definition sx_quad (q : quadcomb) : sx := Lst [Sym "*"; sx_lin (qleft q); sx_lin (qright q)].
Definition sx_prime : sx := Sym "~prime".
Definition sx_stmt (s : stmt) : list sx :=
  match s with Constraint q l _ => [Lst [Sym "="; Lst [Sym "mod"; sx_quad q; sx_prime]; Lst [Sym "mod"; sx_lin l; sx_prime]]] | _ => [] end.
Definition sx_decl (s : string) : sx := Lst [Sym "declare-const"; Sym s; Sym "Int"].
Definition sx_prog (p : prog) (ss : list stmt) : list sx :=
  sx_decl "~prime" :: map (fun v => sx_decl (show_var v)) (smt_vars p) ++
  [Lst [Sym "assert"; Lst (Sym "and" :: Lst [Sym "="; sx_prime; Num pp] :: Lst [Sym "="; Sym "~one"; Num 1] :: flat_map sx_stmt ss)]].

Lemma lit_closed : forall s ts, (forall r, lex MStart (s +++ r) = addt ts (lex MStart r)) -> closed_txt s ts.
Proof. intros s ts H. exact H. Qed.
Ltac lit := let r := fresh in intros r; cbn; destruct (lex MStart r); reflexivity.
Lemma fval_nn : forall x : F, 0 <= fval x.
Proof. intros x. apply (fval_range x). Qed.
Lemma op_txt : forall a ts b us, open_txt a ts -> open_txt b us -> closed_txt (prefix_op "*" a b) (TOpen :: TSym "*" :: ts ++ us ++ [TClose]).
Proof.
  intros a ts b us A B. unfold prefix_op. change (TOpen :: TSym "*" :: ts ++ us ++ [TClose]) with ([TOpen; TSym "*"] ++ ts ++ us ++ [TClose]).
  change ("(" +++ "*" +++ " " +++ a +++ " " +++ b +++ ")") with ("(* " +++ a +++ " " +++ b +++ ")"). apply closed_app; [lit|]. apply (open_closed a ts " "); [exact A|reflexivity|]. change (String " " ("" +++ b +++ ")")) with (" " +++ b +++ ")").
  apply (closed_app " " (b +++ ")") [] (us ++ [TClose])); [lit|]. apply (open_closed b us ")"); [exact B|reflexivity|]. lit.
Qed.
Lemma term_txt : forall t, closed_txt (smt_term t) (toks (sx_term t)).
Proof. intros [v k]. exact (op_txt _ _ _ _ (closed_open _ _ (var_txt v)) (num_txt _ (fval_nn k))). Qed.
Lemma lin_txt : forall l, open_txt (smt_lin l) (toks (sx_lin l)).
Proof.
  intros [|t [|u l]]; [|exact (closed_open _ _ (term_txt t))|].
  - intros c r D. cbn [smt_lin String.append]. rewrite start_word by reflexivity. cbn [lex]. rewrite D. change (word "0") with (Some (TNum 0)). apply push_addt.
  - apply closed_open. cbn [smt_lin sx_lin toks]. remember (t :: u :: l) as k eqn:Ek. assert (Nk : k <> []) by (subst k; discriminate). clear Ek t u l. change (TOpen :: flat_map toks (Sym "+" :: map sx_term k) ++ [TClose]) with ([TOpen; TSym "+"] ++ flat_map toks (map sx_term k) ++ [TClose]).
    intros r. rewrite app_assoc_s. assert (G : forall k r, lex MStart ((cat (map (fun t => " " +++ smt_term t) k) +++ ")") +++ r) = addt (flat_map toks (map sx_term k) ++ [TClose]) (lex MStart r)).
    { clear. induction k as [|t k IH]; intros r; [cbn; apply push_addt|]. cbn [map cat flat_map]. rewrite !app_assoc_s. change (lex MStart (" " +++ smt_term t +++ cat (map (fun t => " " +++ smt_term t) k) +++ ")" +++ r)) with (lex MStart (smt_term t +++ cat (map (fun t => " " +++ smt_term t) k) +++ ")" +++ r)).
      rewrite (term_txt t). specialize (IH r). rewrite app_assoc_s in IH. rewrite IH, <- addt_app, app_assoc. reflexivity. }
    rewrite addt_app, <- G. destruct k as [|t k]; [contradiction Nk; reflexivity|]. cbn [map cat]. rewrite !app_assoc_s. change (lex MStart ("(+" +++ " " +++ smt_term t +++ cat (map (fun t => " " +++ smt_term t) k) +++ ")" +++ r)) with (push (Some TOpen) (push (Some (TSym "+")) (lex MStart (" " +++ smt_term t +++ cat (map (fun t => " " +++ smt_term t) k) +++ ")" +++ r)))).
    rewrite !push_addt, <- addt_app. reflexivity.
Qed.
Lemma quad_txt : forall q, closed_txt (smt_quad q) (toks (sx_quad q)).
Proof. intros q. pose proof (op_txt _ _ _ _ (lin_txt (qleft q)) (lin_txt (qright q))) as H. unfold sx_quad. cbn [toks flat_map]. rewrite app_nil_r. cbn [app]. rewrite <- app_assoc. exact H. Qed.
Lemma stmt_txt : forall s t, smt_stmt (Single s) = Some t -> closed_txt t (flat_map toks (sx_stmt s)).
Proof.
  intros [q l err|o v i|f es] t H; [|injection H as <-; lit|injection H as <-; lit].
  assert (Et : t = "(= (mod " +++ smt_quad q +++ " |~prime|) (mod " +++ smt_lin l +++ " |~prime|))") by (cbn [smt_stmt] in H; symmetry; congruence). subst t. clear H.
  cbn [sx_stmt flat_map]. rewrite app_nil_r.
  pose proof (quad_txt q) as Hq. pose proof (lin_txt l) as Hl. generalize dependent (smt_quad q). generalize dependent (smt_lin l). intros L Hl Q Hq.
  intros r. transitivity (lex MStart ("(= (mod " +++ Q +++ " |~prime|) (mod " +++ L +++ " |~prime|))" +++ r)); [rewrite !app_assoc_s; reflexivity|].
  transitivity (addt [TOpen; TSym "="; TOpen; TSym "mod"] (lex MStart (Q +++ " |~prime|) (mod " +++ L +++ " |~prime|))" +++ r))); [cbn [String.append lex start]; cbn; destruct (lex MStart (Q +++ _)); reflexivity|].
  rewrite Hq. transitivity (addt [TOpen; TSym "="; TOpen; TSym "mod"] (addt (toks (sx_quad q)) (addt [TSym "~prime"; TClose; TOpen; TSym "mod"] (lex MStart (L +++ " |~prime|))" +++ r))))); [f_equal; f_equal; cbn; destruct (lex MStart (L +++ _)); reflexivity|].
  change (L +++ " |~prime|))" +++ r) with (L +++ String " " ("|~prime|))" +++ r)). rewrite (Hl " "%char _ eq_refl). transitivity (addt [TOpen; TSym "="; TOpen; TSym "mod"] (addt (toks (sx_quad q)) (addt [TSym "~prime"; TClose; TOpen; TSym "mod"] (addt (toks (sx_lin l)) (addt [TSym "~prime"; TClose; TClose] (lex MStart r)))))); [do 4 f_equal; cbn; destruct (lex MStart r); reflexivity|].
  rewrite <- !addt_app. f_equal. cbn [toks flat_map app sx_prime]. rewrite <- !app_assoc. cbn [app]. rewrite <- !app_assoc. reflexivity.
Qed.
Lemma stmts_txt : forall l t, smt_stmts l = Some t -> closed_txt t (flat_map toks (flat_map sx_stmt (flat_stmts l))).
Proof.
  induction l as [|b l IH]; intros t H; cbn [smt_stmts] in H; [injection H as <-; intros r; cbn; destruct (lex MStart r); reflexivity|]. destruct b as [s|ss]; [|discriminate H]. destruct (smt_stmt (Single s)) as [u|] eqn:E; [|discriminate H]. destruct (smt_stmts l) as [v|]; [|discriminate H]. injection H as <-.
  change (flat_stmts (Single s :: l)) with (s :: flat_stmts l). cbn [flat_map]. rewrite flat_map_app. apply closed_app; [exact (stmt_txt s u E)|]. apply (closed_app nl v []); [lit|exact (IH v eq_refl)].
Qed.
Lemma decls_txt : forall vs, closed_txt (cat (map (fun v => "(declare-const " +++ smt_var v +++ " Int)" +++ nl) vs)) (flat_map toks (map (fun v => sx_decl (show_var v)) vs)).
Proof.
  induction vs as [|v vs IH]; [lit|]. cbn [map cat flat_map]. apply closed_app; [|exact IH]. apply (closed_app "(declare-const " _ [TOpen; TSym "declare-const"]); [lit|]. apply (closed_app (smt_var v) _ [TSym (show_var v)]); [apply var_txt|]. lit.
Qed.
Lemma comment_txt : forall s n, 0 <= n -> (forall r, lex MStart (s +++ r) = lex MComment r) -> closed_txt (s +++ dec_string n +++ nl) [].
Proof. intros s n Hn H r. rewrite !app_assoc_s, H. destruct (dec_digits n Hn) as [ds E]. change (nl +++ r) with (String newline r). rewrite (lex_comment _ ds r E). destruct (lex MStart r); reflexivity. Qed.
Theorem prog_txt : forall p t, smt_prog p = Some t -> read_script t = Some (sx_prog p (flat_stmts (pstmts p))).
Proof.
  intros p t H. unfold smt_prog in H. destruct (smt_stmts (pstmts p)) as [body|] eqn:E; [|discriminate H].
  match type of H with Some ?x = _ => assert (Et : t = x) by (symmetry; congruence) end. subst t. clear H. unfold read_script.
  assert (G : forall x ts, closed_txt x ts -> lex MStart x = Some ts). { intros x ts C. specialize (C EmptyString). replace (x +++ EmptyString) with x in C by (clear; induction x as [|y x IHx]; [reflexivity|cbn [String.append]; rewrite <- IHx; reflexivity]). rewrite C. cbn [lex addt]. rewrite app_nil_r. reflexivity. }
  match goal with |- context [lex MStart ?x] => set (X := x) end. pose proof (fval_nn f0) as P0. assert (Pp : 0 <= pp) by (pose proof pp_gt1; lia).
  assert (C : closed_txt X (flat_map toks (sx_prog p (flat_stmts (pstmts p))))).
  { unfold X, sx_prog. clear X G. set (vs := smt_vars p). cbn [flat_map]. rewrite flat_map_app.
    assert (A : forall a b c us, closed_txt (a +++ b) [] -> closed_txt c us -> closed_txt (a +++ b +++ c) us) by (intros a b c us P Q; rewrite <- app_assoc_s; exact (closed_app _ _ [] us P Q)).
    assert (A3 : forall a b c d us, closed_txt (a +++ b +++ c) [] -> closed_txt d us -> closed_txt (a +++ b +++ c +++ d) us) by (intros a b c d us P Q; replace (a +++ b +++ c +++ d) with ((a +++ b +++ c) +++ d) by (rewrite !app_assoc_s; reflexivity); exact (closed_app _ _ [] us P Q)).
    apply A; [lit|]. apply A3; [apply comment_txt; [lia|intros r; reflexivity]|]. apply A3; [apply comment_txt; [lia|intros r; reflexivity]|].
    apply (closed_app "(declare-const |~prime| Int)" _ (toks (sx_decl "~prime"))); [lit|]. apply (closed_app nl _ []); [lit|]. apply closed_app; [apply decls_txt|].
    cbn [toks flat_map]. rewrite app_nil_r. cbn [app].
    replace ("(assert (and" +++ nl +++ "(= |~prime| " +++ dec_string pp +++ ")" +++ nl +++ "(= |~one| 1)" +++ nl +++ body +++ "))") with (("(assert (and" +++ nl +++ "(= |~prime| ") +++ dec_string pp +++ String ")" (nl +++ "(= |~one| 1)" +++ nl +++ body +++ "))")) by (rewrite !app_assoc_s; reflexivity).
    match goal with |- closed_txt _ ?R => replace R with ([TOpen; TSym "assert"; TOpen; TSym "and"; TOpen; TSym "="; TSym "~prime"] ++ [TNum pp] ++ [TClose; TOpen; TSym "="; TSym "~one"; TNum 1; TClose] ++ flat_map toks (flat_map sx_stmt (flat_stmts (pstmts p))) ++ [TClose; TClose]) by (cbn [app sx_prime toks flat_map]; rewrite <- !app_assoc; reflexivity) end.
    apply closed_app; [lit|]. apply (open_closed _ _ ")"); [exact (num_txt pp Pp)|reflexivity|].
    replace (String ")" (nl +++ "(= |~one| 1)" +++ nl +++ body +++ "))")) with ((")" +++ nl +++ "(= |~one| 1)" +++ nl) +++ body +++ "))") by (rewrite !app_assoc_s; reflexivity).
    apply closed_app; [lit|]. apply closed_app; [exact (stmts_txt _ _ E)|lit]. }
  rewrite (G X _ C). clear. set (l := sx_prog p _). assert (G : forall a, parse [a] (flat_map toks l) = Some (rev a ++ l)).
  { induction l as [|e l IH]; intros a; [cbn; rewrite app_nil_r; reflexivity|]. cbn [flat_map]. rewrite parse_toks, IH. cbn [rev]. rewrite <- app_assoc. reflexivity. }
  exact (G []).
Qed.
(** ** The names of variables *)
Definition dec_value (s : string) : Z := match digits 10 s with Some ds => value 10 ds | None => 0 end.
Definition var_of (s : string) : var :=
  match s with
  | String "_" r => dec_value r + 1
  | String "~" (String "o" (String "u" (String "t" (String "_" r)))) => - dec_value r - 1
  | _ => 0
  end.
Lemma dec_value_ok : forall n, 0 <= n -> dec_value (dec_string n) = n.
Proof. intros n H. destruct (dec_string_denotes n H) as [ds [_ [E V]]]. unfold dec_value. rewrite E. exact V. Qed.
Lemma var_of_show : forall v, var_of (show_var v) = v.
Proof.
  intros v. unfold show_var. destruct (v =? 0) eqn:E0; [apply Z.eqb_eq in E0; subst v; reflexivity|]. apply Z.eqb_neq in E0. destruct (0 <? v) eqn:E1; [apply Z.ltb_lt in E1|apply Z.ltb_ge in E1].
  - change (dec_value (dec_string (v - 1)) + 1 = v). rewrite dec_value_ok; lia.
  - change (- dec_value (dec_string (- (v + 1))) - 1 = v). rewrite dec_value_ok; lia.
Qed.
Lemma show_inj : forall u v, show_var u = show_var v -> u = v.
Proof. intros u v H. rewrite <- (var_of_show u), <- (var_of_show v), H. reflexivity. Qed.
Lemma show_not_prime : forall v, show_var v <> "~prime".
Proof.
  intros v H. unfold show_var in H. destruct (v =? 0); [discriminate H|]. destruct (0 <? v); discriminate H.
Qed.
(** ** The meaning of the script *)
Lemma known_in : forall D s, known D s = true <-> In s D.
Proof. intros D s. unfold known. rewrite existsb_exists. split; [intros [x [I E]]; apply String.eqb_eq in E as ->; exact I|intros I; exists s; split; [exact I|apply String.eqb_refl]]. Qed.
Lemma decls_run : forall z0 m rest names D, NoDup names -> (forall s, In s names -> ~ In s D) ->
  commands z0 D m (map sx_decl names ++ rest) = commands z0 (rev names ++ D) m rest.
Proof.
  intros z0 m rest. induction names as [|s names IH]; intros D N H; [reflexivity|]. inversion N as [|x l N1 N2]; subst. cbn [map app rev]. change (commands z0 D m (sx_decl s :: map sx_decl names ++ rest)) with (if known D s then None else commands z0 (s :: D) m (map sx_decl names ++ rest)).
  destruct (known D s) eqn:K; [apply known_in in K; exfalso; exact (H s (or_introl eq_refl) K)|]. rewrite <- app_assoc. apply IH; [exact N2|]. intros x I [->|J]; [exact (N1 I)|exact (H x (or_intror I) J)].
Qed.
Section Meaning.
Variable z0 : Z -> Z.
Variable m : string -> Z.
Variable D : symbols.
Definition wit : env := fun v => of_Z (m (show_var v)).
Lemma term_int : forall t, known D (show_var (fst t)) = true -> int_term z0 D m (sx_term t) = Some (m (show_var (fst t)) * (fval (snd t) * 1)).
Proof. intros [v k] H. cbn [fst snd] in *. unfold sx_term. cbn [int_term map all_some fst snd]. rewrite H. reflexivity. Qed.
Lemma terms_int : forall l, Forall (fun v => known D (show_var v) = true) (lc_vars l) -> exists ns, all_some (map (int_term z0 D m) (map sx_term l)) = Some ns /\ length ns = length l /\ of_Z (sum ns) = eval_lin wit l.
Proof.
  induction l as [|t l IH]; intros H; [exists []; repeat split; reflexivity|]. inversion H as [|x r H1 H2]; subst. destruct (IH H2) as [ns [A [B C]]]. eexists. cbn [map]. rewrite (term_int t H1). cbn [all_some]. rewrite A. split; [reflexivity|]. split; [cbn [length]; rewrite B; reflexivity|].
  cbn [sum fold_right]. change (fold_right Z.add 0 ns) with (sum ns). rewrite of_Z_add, C. destruct t as [v k]. cbn [fst snd eval_lin]. f_equal. rewrite Z.mul_1_r, of_Z_mul, of_Z_fval. unfold wit. ring.
Qed.
Lemma lin_int : forall l, Forall (fun v => known D (show_var v) = true) (lc_vars l) -> exists n, int_term z0 D m (sx_lin l) = Some n /\ of_Z n = eval_lin wit l.
Proof.
  intros l H. destruct (terms_int l H) as [ns [A [B C]]]. destruct l as [|t [|u l]].
  - exists 0. split; [reflexivity|]. cbn [eval_lin]. reflexivity.
  - cbn [map all_some] in A. cbn [sx_lin]. destruct (int_term z0 D m (sx_term t)) as [n|]; [|discriminate A]. injection A as <-. exists n. split; [reflexivity|]. rewrite <- C. cbn [sum fold_right]. rewrite Z.add_0_r. reflexivity.
  - exists (sum ns). split; [|exact C]. remember (t :: u :: l) as k eqn:Ek. replace (sx_lin k) with (Lst (Sym "+" :: map sx_term k)) by (subst k; reflexivity). cbn [int_term]. rewrite A. change (String.eqb "+" "+") with true. cbv iota. subst k. destruct ns as [|a [|b ns]]; try discriminate B. reflexivity.
Qed.
Lemma stmt_formula : forall s, Forall (fun v => known D (show_var v) = true) (stmt_vars s) -> known D "~prime" = true ->
  exists b, all_some (map (formula z0 D m) (sx_stmt s)) = Some b /\ (m "~prime" = pp -> (forallb (fun x => x) b = true <-> sat_stmt wit s)).
Proof.
  intros [q l err|o v i|f es] H P; try (exists []; split; [reflexivity|intros _; split; [intros _; exact Logic.I|reflexivity]]). cbn [stmt_vars] in H. unfold q_vars in H. rewrite !Forall_app in H. destruct H as [[H1 H2] H3].
  destruct (lin_int _ H1) as [a [A1 A2]]. destruct (lin_int _ H2) as [b [B1 B2]]. destruct (lin_int _ H3) as [c [C1 C2]].
  cbn [sx_stmt map]. unfold sx_quad, sx_prime. set (L1 := sx_lin (qleft q)) in *. set (L2 := sx_lin (qright q)) in *. set (L3 := sx_lin l) in *.
  cbn [formula int_term map all_some]. rewrite A1, B1, C1, P. cbn [all_some]. eexists. split; [reflexivity|]. intros Ep.
  change (String.eqb "*" "+") with false. change (String.eqb "*" "*") with true. cbv iota. rewrite Ep. pose proof pp_gt1 as G. replace (pp =? 0) with false by (symmetry; apply Z.eqb_neq; lia). rewrite Z.abs_eq by lia. cbn [forallb sat_stmt]. rewrite andb_true_r, Z.eqb_eq. unfold eval_quad. rewrite <- A2, <- B2, <- C2, <- of_Z_mul. cbn [prod fold_right]. rewrite Z.mul_1_r. symmetry. apply of_Z_eq.
Qed.
Lemma all_some_app : forall A (a b : list (option A)), all_some (a ++ b) = match all_some a, all_some b with Some x, Some y => Some (x ++ y) | _, _ => None end.
Proof. induction a as [|[x|] a IH]; intros b; cbn [app all_some]; [destruct (all_some b); reflexivity| |reflexivity]. rewrite IH. destruct (all_some a); [|reflexivity]. destruct (all_some b); reflexivity. Qed.
Lemma stmts_formula : forall ss, Forall (fun v => known D (show_var v) = true) (flat_map stmt_vars ss) -> known D "~prime" = true ->
  exists b, all_some (map (formula z0 D m) (flat_map sx_stmt ss)) = Some b /\ (m "~prime" = pp -> (forallb (fun x => x) b = true <-> sat wit ss)).
Proof.
  induction ss as [|s ss IH]; intros H P; [exists []; split; [reflexivity|]; intros _; split; [intros _; constructor|reflexivity]|]. cbn [flat_map] in H. apply Forall_app in H as [H1 H2]. destruct (stmt_formula s H1 P) as [a [A1 A2]]. destruct (IH H2 P) as [b [B1 B2]]. cbn [flat_map]. rewrite map_app, all_some_app, A1, B1. eexists. split; [reflexivity|]. intros E.
  rewrite forallb_app, andb_true_iff, (A2 E), (B2 E). unfold sat. split; [intros [X Y]; constructor; assumption|intros X; inversion X; split; assumption].
Qed.
End Meaning.
Lemma sorted_nodup : forall l, sorted l -> NoDup l.
Proof. intros l H. induction H as [|x l H IH F]; constructor; [|exact IH]. intros I. rewrite Forall_forall in F. specialize (F x I). lia. Qed.
Theorem smt_meaning : forall p t z0 m, smt_prog p = Some t ->
  exists b, script z0 t m = Some b /\ (b = true <-> m "~prime" = pp /\ m "~one" = 1 /\ satisfies (wit m) p).
Proof.
  intros p t z0 m H. unfold script. rewrite (prog_txt p t H). unfold sx_prog. destruct (set_of_spec (map pid (pargs p) ++ flat_map stmt_vars (flat_stmts (pstmts p)) ++ [vone])) as [So Me]. change (set_of _) with (smt_vars p) in So, Me.
  rewrite <- (map_map show_var sx_decl). change (sx_decl "~prime" :: map sx_decl (map show_var (smt_vars p)) ++ ?r) with (map sx_decl ("~prime" :: map show_var (smt_vars p)) ++ r).
  rewrite decls_run; [| |intros s _ []].
  2:{ constructor; [intros I; apply in_map_iff in I as [v [E _]]; exact (show_not_prime v E)|]. apply FinFun.Injective_map_NoDup; [exact show_inj|exact (sorted_nodup _ So)]. }
  rewrite app_nil_r. set (D := rev ("~prime" :: map show_var (smt_vars p))). assert (K : forall s, In s ("~prime" :: map show_var (smt_vars p)) -> known D s = true) by (intros s I; apply known_in; unfold D; rewrite <- in_rev; exact I).
  assert (Kv : forall v, In v (smt_vars p) -> known D (show_var v) = true) by (intros v I; apply K; right; apply in_map; exact I). assert (Kp : known D "~prime" = true) by (apply K; left; reflexivity).
  assert (K1 : known D "~one" = true) by (apply (Kv vone); apply Me; rewrite !in_app_iff; right; right; left; reflexivity).
  destruct (stmts_formula z0 m D (flat_stmts (pstmts p))) as [b [B1 B2]]; [|exact Kp|]. { apply Forall_forall. intros v I. apply Kv, Me. rewrite !in_app_iff. right. left. exact I. }
  clearbody D. set (fs := flat_map sx_stmt (flat_stmts (pstmts p))) in *.
  assert (Fm : formula z0 D m (Lst (Sym "and" :: Lst [Sym "="; sx_prime; Num pp] :: Lst [Sym "="; Sym "~one"; Num 1] :: fs)) = Some ((m "~prime" =? pp) && ((m "~one" =? 1) && forallb (fun x => x) b))).
  { change (option_map (forallb (fun b => b)) (all_some (map (formula z0 D m) ([Lst [Sym "="; sx_prime; Num pp]; Lst [Sym "="; Sym "~one"; Num 1]] ++ fs))) = Some ((m "~prime" =? pp) && ((m "~one" =? 1) && forallb (fun x => x) b))). rewrite map_app, all_some_app, B1. cbn [map formula int_term sx_prime]. rewrite Kp, K1. reflexivity. }
  change (commands z0 D m [Lst [Sym "assert"; ?e]]) with (match formula z0 D m e with Some b => Some (b && true) | None => None end). rewrite Fm. eexists. split; [reflexivity|]. rewrite andb_true_r, !andb_true_iff, !Z.eqb_eq. unfold satisfies.
  split.
  - intros [A [B C]]. split; [exact A|]. split; [exact B|]. split; [unfold wit; change (show_var vone) with "~one"; rewrite B; reflexivity|]. exact (proj1 (B2 A) C).
  - intros [A [B [_ C]]]. split; [exact A|]. split; [exact B|]. exact (proj2 (B2 A) C).
Qed.
End Smt.
