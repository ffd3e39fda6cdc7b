(** The bound on the depth of the recursion of the reducer does not change its result. *)
From Coq Require Import String.
From Coq Require Import ZArith NArith List Bool Lia.
From Verif Require Import PField Interp Bits Zir UintOpt Abi Typed Writes Src SrcTy TProp TPropOk Reduce.
Import ListNotations.
Open Scope Z_scope.

Section Fuel.
Context {PF : PrimeField}.
Variable funs : ftable.
Definition le1 {A B} (f g : A -> option B) : Prop := forall a b, f a = Some b -> g a = Some b.
Definition leF (f g : rfold) : Prop := forall L C e r, f L C e = Some r -> g L C e = Some r.
Definition leS (f g : rstep) : Prop := forall L C V s r, f L C V s = Some r -> g L C V s = Some r.
Ltac opn H E := match type of H with match ?x with _ => _ end = Some _ => destruct x eqn:E; try discriminate H end.
Lemma rall_le : forall f g, leF f g -> forall es L C r, rall f L C es = Some r -> rall g L C es = Some r.
Proof.
  intros f g Q es. induction es as [|e es IH]; intros L C r H; [exact H|]. cbn [rall] in *. destruct (f L C e) as [[[[L1 C1] b1] e']|] eqn:E1; [|discriminate H]. rewrite (Q _ _ _ _ E1). destruct (rall f L1 C1 es) as [[[[L2 C2] b2] r']|] eqn:E2; [|discriminate H]. rewrite (IH _ _ _ E2). exact H.
Qed.
Lemma rsand_le : forall f g, leF f g -> leF (rsand f) (rsand g).
Proof. intros f g Q L C e r H. unfold rsand in *. destruct (pexp C e) as [e1|]; [|discriminate H]. destruct (f L C e1) as [[[[L1 C1] b1] e']|] eqn:E1; [|discriminate H]. rewrite (Q _ _ _ _ E1). exact H. Qed.
Lemma rslice_le : forall fr V f g, leF f g -> leF (rslice fr V f) (rslice fr V g).
Proof. intros fr V f g Q L C e r H. exact (rsand_le f g Q _ _ _ _ H). Qed.
Lemma rpath_le : forall f g, leF f g -> forall p L C r, rpath f L C p = Some r -> rpath g L C p = Some r.
Proof.
  intros f g Q p. induction p as [|[i|m|k] p IH]; intros L C r H; [exact H| | |]; cbn [rpath] in *.
  - destruct (f L C i) as [[[[L1 C1] b1] e']|] eqn:E1; [|discriminate H]. rewrite (Q _ _ _ _ E1). fold (rpath f) in H. fold (rpath g). destruct (rpath f L1 C1 p) as [[[[L2 C2] b2] r']|] eqn:E2; [|discriminate H]. rewrite (IH _ _ _ E2). exact H.
  - fold (rpath f) in H. fold (rpath g). destruct (rpath f L C p) as [[[[L2 C2] b2] r']|] eqn:E2; [|discriminate H]. rewrite (IH _ _ _ E2). exact H.
  - fold (rpath f) in H. fold (rpath g). destruct (rpath f L C p) as [[[[L2 C2] b2] r']|] eqn:E2; [|discriminate H]. rewrite (IH _ _ _ E2). exact H.
Qed.
Lemma rone_le : forall f g, leF f g -> forall L C s r, rone f L C s = Some r -> rone g L C s = Some r.
Proof.
  intros f g Q L C s r H. destruct s as [x t e|x t p e|e err|fmt args|x t em args|x a b body]; cbn [rone] in *; try discriminate H.
  - destruct (f L C e) as [[[[L1 C1] b1] e']|] eqn:E1; [|discriminate H]. rewrite (Q _ _ _ _ E1). exact H.
  - destruct (f L C e) as [[[[L1 C1] b1] e']|] eqn:E1; [|discriminate H]. rewrite (Q _ _ _ _ E1). destruct (rpath f L1 C1 p) as [[[[L2 C2] b2] p']|] eqn:E2; [|discriminate H]. rewrite (rpath_le f g Q _ _ _ _ E2). exact H.
  - destruct (f L C e) as [[[[L1 C1] b1] e']|] eqn:E1; [|discriminate H]. rewrite (Q _ _ _ _ E1). exact H.
  - destruct (rall f L C args) as [[[[L1 C1] b1] e']|] eqn:E1; [|discriminate H]. rewrite (rall_le f g Q _ _ _ _ E1). exact H.
Qed.
Lemma rones_le : forall f g, leF f g -> forall ss L C r, rones f L C ss = Some r -> rones g L C ss = Some r.
Proof.
  intros f g Q ss. induction ss as [|s ss IH]; intros L C r H; [exact H|]. cbn [rones] in *. destruct (rone f L C s) as [[[[L1 C1] b1] e']|] eqn:E1; [|discriminate H]. rewrite (rone_le f g Q _ _ _ _ E1). destruct (rones f L1 C1 ss) as [[[[L2 C2] b2] r']|] eqn:E2; [|discriminate H]. rewrite (IH _ _ _ E2). exact H.
Qed.
Lemma rsimple_le : forall f g, leF f g -> forall L C s r, rsimple f L C s = Some r -> rsimple g L C s = Some r.
Proof.
  intros f g Q L C s r H. unfold rsimple in *. destruct (pstmt C s) as [[C1 l1]|]; [|discriminate H]. destruct (rones f L C1 l1) as [[[[L2 C2] b2] l2]|] eqn:E; [|discriminate H]. rewrite (rones_le f g Q _ _ _ _ E). exact H.
Qed.
Lemma rstmts_le : forall f g, leS f g -> forall ss L C V r, rstmts_ f L C V ss = Some r -> rstmts_ g L C V ss = Some r.
Proof.
  intros f g Q ss. induction ss as [|s ss IH]; intros L C V r H; [exact H|]. cbn [rstmts_] in *. destruct (f L C V s) as [[[[L1 C1] V1] b1]|] eqn:E1; [|discriminate H]. rewrite (Q _ _ _ _ _ E1). destruct (rstmts_ f L1 C1 V1 ss) as [[[[L2 C2] V2] b2]|] eqn:E2; [|discriminate H]. rewrite (IH _ _ _ _ E2). exact H.
Qed.
Lemma riter_le : forall f g, leS f g -> forall x body ks L C V r, riter f x body L C V ks = Some r -> riter g x body L C V ks = Some r.
Proof.
  intros f g Q x body ks. induction ks as [|k ks IH]; intros L C V r H; [exact H|]. cbn [riter] in *. destruct (rstmts_ f L C V _) as [[[[L1 C1] V1] b1]|] eqn:E1; [|discriminate H]. rewrite (rstmts_le f g Q _ _ _ _ _ E1). destruct (riter f x body L1 C1 V1 ks) as [[[[L2 C2] V2] b2]|] eqn:E2; [|discriminate H]. rewrite (IH _ _ _ _ E2). exact H.
Qed.
Lemma u_call : forall n fr V L C ts t f gens args, rexp funs (S n) fr V L C (SCall ts t f gens args) =
        match rall (rsand (rexp funs n fr V)) L C gens with
        | Some (L1, C1, b1, gens') =>
          match opt_list (map unum gens') with
          | Some ns =>
            match rall (rsand (rexp funs n fr V)) L1 C1 args with
            | Some (L2, C2, b2, args') =>
              let fr' := S L2 in
              match funs f ns ts t with
              | Some (Here gs ps body ret) =>
                if (length ps =? length args')%nat && (length gs =? length ns)%nat then
                match pstmts C2 (bindings fr' ps args') with
                | Some (C3, b3) =>
                  match rstmts_ (rstmt funs n fr') fr' C3 (param_versions ps) (gen_defs gs ns ++ body) with
                  | Some (L4, C4, V4, b4) =>
                    match rslice fr' V4 (rexp funs n fr' V4) L4 C4 ret with
                    | Some (L5, C5, b5, r) => Some (L5, clear L5 C5, b1 ++ b2 ++ b3 ++ b4 ++ b5, r)
                    | None => None
                    end
                  | None => None
                  end
                | None => None
                end
                else None
              | Some (Flat em u) =>
                let x := (fr', CallId, O) in
                match pstmts C2 [SEmb x u em args'] with
                | Some (C3, b3) => Some (fr', clear fr' C3, b1 ++ b2 ++ b3, match C3 x with Some (w, v) => lit w v | None => SId u x end)
                | None => None
                end
              | None => None
              end
            | None => None
            end
          | None => None
          end
        | None => None
        end.
Proof. reflexivity. Qed.
Lemma u_for : forall n fr L C V x a b body, rstmt funs (S n) fr L C V (SFor x a b body) =
        match rall (rslice fr V (rexp funs n fr V)) L C [a; b] with
        | Some (L1, C1, b1, [a'; b']) =>
          match unum a', unum b' with
          | Some i, Some j => if (i <=? j) && (j - i <=? 2 ^ 20) then
              match riter (rstmt funs n fr) x body L1 C1 V (zrange i j) with Some (L2, C2, V2, b2) => Some (L2, C2, V2, b1 ++ b2) | None => None end
              else None
          | _, _ => None
          end
        | _ => None
        end.
Proof. reflexivity. Qed.
Lemma fuel_step : forall n, (forall fr V, leF (rexp funs n fr V) (rexp funs (S n) fr V)) /\ (forall fr, leS (rstmt funs n fr) (rstmt funs (S n) fr)).
Proof.
  induction n as [|n [IE IS]]; [split; [intros fr V L C e r H; discriminate H|intros fr L C V s r H; discriminate H]|]. split.
  - intros fr V L C e r H. destruct e as [t x|op args|k e cs|c x y|ts t f gens args].
    + exact H.
    + cbn [rexp] in H. change (match rall (rexp funs (S n) fr V) L C args with Some (L1, C1, b, l) => Some (L1, C1, b, SOp op l) | None => None end = Some r). destruct (rall (rexp funs n fr V) L C args) as [[[[L1 C1] b1] l]|] eqn:E; [|discriminate H]. rewrite (rall_le _ _ (IE fr V) _ _ _ _ E). exact H.
    + assert (Q : forall f g, leF f g -> forall r, match f L C e with Some (L1, C1, b1, e') => match rall f L1 C1 cs with Some (L2, C2, b2, l) => if negb (is_slice k) || forallb is_num l then Some (L2, C2, b1 ++ b2, SPar k e' l) else None | None => None end | None => None end = Some r ->
        match g L C e with Some (L1, C1, b1, e') => match rall g L1 C1 cs with Some (L2, C2, b2, l) => if negb (is_slice k) || forallb is_num l then Some (L2, C2, b1 ++ b2, SPar k e' l) else None | None => None end | None => None end = Some r).
      { intros f g Q r' H'. destruct (f L C e) as [[[[L1 C1] b1] e']|] eqn:E1; [|discriminate H']. rewrite (Q _ _ _ _ E1). destruct (rall f L1 C1 cs) as [[[[L2 C2] b2] l]|] eqn:E2; [|discriminate H']. rewrite (rall_le _ _ Q _ _ _ _ E2). exact H'. }
      refine (Q (if is_slice k then rslice fr V (rexp funs n fr V) else rexp funs n fr V) (if is_slice k then rslice fr V (rexp funs (S n) fr V) else rexp funs (S n) fr V) _ r H). destruct (is_slice k); [apply rslice_le|]; apply IE.
    + change (match rall (rexp funs n fr V) L C [c; x; y] with Some (L1, C1, b, [c'; x'; y']) => Some (L1, C1, b, SCond c' x' y') | _ => None end = Some r) in H. change (match rall (rexp funs (S n) fr V) L C [c; x; y] with Some (L1, C1, b, [c'; x'; y']) => Some (L1, C1, b, SCond c' x' y') | _ => None end = Some r). destruct (rall (rexp funs n fr V) L C [c; x; y]) as [q|] eqn:E; [|discriminate H]. rewrite (rall_le _ _ (IE fr V) _ _ _ _ E). exact H.
    + rewrite u_call in H |- *. cbv zeta in H |- *. destruct (rall (rsand (rexp funs n fr V)) L C gens) as [[[[L1 C1] b1] gens']|] eqn:E1; [|discriminate H]. rewrite (rall_le _ _ (rsand_le _ _ (IE fr V)) _ _ _ _ E1). destruct (opt_list (map unum gens')) as [ns|]; [|discriminate H].
      destruct (rall (rsand (rexp funs n fr V)) L1 C1 args) as [[[[L2 C2] b2] args']|] eqn:E2; [|discriminate H]. rewrite (rall_le _ _ (rsand_le _ _ (IE fr V)) _ _ _ _ E2). destruct (funs f ns ts t) as [[gs ps body ret|em u]|]; [|exact H|discriminate H]. destruct ((length ps =? length args')%nat && (length gs =? length ns)%nat); [|discriminate H].
      destruct (pstmts C2 (bindings (S L2) ps args')) as [[C3 b3]|]; [|discriminate H]. destruct (rstmts_ (rstmt funs n (S L2)) (S L2) C3 (param_versions ps) (gen_defs gs ns ++ body)) as [[[[L4 C4] V4] b4]|] eqn:E4; [|discriminate H]. rewrite (rstmts_le _ _ (IS (S L2)) _ _ _ _ _ E4).
      destruct (rslice (S L2) V4 (rexp funs n (S L2) V4) L4 C4 ret) as [[[[L5 C5] b5] r5]|] eqn:E5; [|discriminate H]. rewrite (rslice_le _ _ _ _ (IE (S L2) V4) _ _ _ _ E5). exact H.
  - intros fr L C V s r H. assert (Q : match ssa fr V s with Some (V', s') => match rsimple (rexp funs n fr V') L C s' with Some (L', C', l) => Some (L', C', V', l) | None => None end | None => None end = Some r -> match ssa fr V s with Some (V', s') => match rsimple (rexp funs (S n) fr V') L C s' with Some (L', C', l) => Some (L', C', V', l) | None => None end | None => None end = Some r).
    { intros H'. destruct (ssa fr V s) as [[V' s']|]; [|discriminate H']. destruct (rsimple (rexp funs n fr V') L C s') as [q|] eqn:E; [|discriminate H']. rewrite (rsimple_le _ _ (IE fr V') _ _ _ _ E). exact H'. }
    destruct s as [x t e|x t p e|e err|fmt args|x t em args|x a b body]; [exact (Q H)|exact (Q H)|exact (Q H)|exact (Q H)|exact (Q H)|]. clear Q.
    rewrite u_for in H |- *. destruct (rall (rslice fr V (rexp funs n fr V)) L C [a; b]) as [[[[L1 C1] b1] l]|] eqn:E1; [|discriminate H]. rewrite (rall_le _ _ (rslice_le fr V _ _ (IE fr V)) _ _ _ _ E1). destruct l as [|a' [|b' [|? ?]]]; try discriminate H.
    destruct (unum a') as [i|]; [|discriminate H]. destruct (unum b') as [j|]; [|discriminate H]. destruct ((i <=? j) && (j - i <=? 2 ^ 20)); [|discriminate H]. destruct (riter (rstmt funs n fr) x body L1 C1 V (zrange i j)) as [[[[L2 C2] V2] b2]|] eqn:E2; [|discriminate H]. rewrite (riter_le _ _ (IS fr) _ _ _ _ _ _ _ E2). exact H.
Qed.
Theorem fuel_more : forall n m p q, (n <= m)%nat -> reduce funs n p = Some q -> reduce funs m p = Some q.
Proof.
  intros n m p q H. induction H as [|m H IH]; intros E; [exact E|]. specialize (IH E). clear E H. destruct (fuel_step m) as [IE IS]. unfold reduce in *. destruct (forallb _ (sargs p)); [|discriminate IH]. match goal with |- context [rstmts_ _ _ _ ?v _] => set (V0 := v) in * end.
  destruct (rstmts_ (rstmt funs m 0) 0 (fun _ => None) V0 (sbody p)) as [[[[L C] V] b]|] eqn:E; [|discriminate IH]. rewrite (rstmts_le _ _ (IS 0%nat) _ _ _ _ _ E). destruct (rslice 0 V (rexp funs m 0 V) L C (sret p)) as [[[[L2 C2] b2] e]|] eqn:E2; [|discriminate IH]. rewrite (rslice_le _ _ _ _ (IE 0%nat V) _ _ _ _ E2). exact IH.
Qed.
End Fuel.
