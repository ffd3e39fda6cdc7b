(** Executable checks of satisfaction and honesty, for the non-vacuity examples. *)
From Coq Require Import ZArith NArith List Bool Lia.
From Verif Require Import PField SMap IR IRSpec Interp Bits Flat FlatProofs Zir Codegen CgBase Concrete.
Import ListNotations.
Open Scope Z_scope.

Section Checks.
Context {PF : PrimeField}.
Definition gsatb (w : env) (s : fstmt) : bool :=
  match s with
  | XDef v e _ => Feqb (w v) (feval w e)
  | XCond l q _ => Feqb (feval w l) (feval w q)
  | XNote u => negb u
  | _ => true
  end.
Fixpoint lF_eqb (a b : list F) : bool :=
  match a, b with [], [] => true | x :: r, y :: s => Feqb x y && lF_eqb r s | _, _ => false end.
Definition honb (solve : solver -> list F -> option (list F)) (w : env) (s : fstmt) : bool :=
  match s with
  | XDef v e _ => Feqb (w v) (feval w e)
  | XDir outs sv ins => match solve sv (map (feval w) ins) with Some r => lF_eqb r (map w outs) | None => false end
  | XCond _ _ _ | XLog _ _ => true
  | XNote _ => false
  end.
Lemma lF_eqb_eq : forall a b, lF_eqb a b = true -> a = b.
Proof.
  induction a as [|x a IH]; intros [|y b] H; try discriminate; auto. cbn in H. apply andb_prop in H as [H1 H2].
  apply Feqb_eq in H1. f_equal; auto.
Qed.
Lemma gsatb_ok : forall w em, forallb (gsatb w) em = true -> Forall (gsat w) em.
Proof.
  intros w em H. rewrite forallb_forall in H. apply Forall_forall. intros s Hs. specialize (H s Hs).
  destruct s; cbn in *; auto; try (apply Feqb_eq; auto). destruct unsafe; auto; discriminate.
Qed.
Lemma honb_ok : forall solve w em, forallb (honb solve w) em = true -> Forall (hon solve w) em.
Proof.
  intros solve w em H. rewrite forallb_forall in H. apply Forall_forall. intros s Hs. specialize (H s Hs).
  destruct s; cbn in *; auto; try (apply Feqb_eq; auto); try discriminate.
  destruct (solve s (map (feval w) ins)); [|discriminate]. apply lF_eqb_eq in H. congruence.
Qed.

(** run flat statements honestly from an assignment *)
Definition upd1 (w : env) (v : var) (x : F) : env := fun u => if u =? v then x else w u.
Fixpoint hexec (solve : solver -> list F -> option (list F)) (w : env) (em : list fstmt) : env :=
  match em with
  | [] => w
  | XDef v e _ :: r => hexec solve (upd1 w v (feval w e)) r
  | XDir outs sv ins :: r => match solve sv (map (feval w) ins) with Some xs => hexec solve (upds w outs xs) r | None => hexec solve w r end
  | _ :: r => hexec solve w r
  end.
Definition em_of {A} (r : option (A * st * list fstmt)) : list fstmt := match r with Some (_, _, em) => em | None => [] end.
(** the run exists, its honest assignment satisfies everything, and the result evaluates to the given integers *)
Definition run_check {A} (w0 : env) (m : option (A * st * list fstmt)) (shw : env -> A -> list Z) (out : list Z) : bool :=
  match m with
  | Some (a, _, em) =>
      let w := hexec (exec_solver (fun _ _ => None)) w0 em in
      forallb (gsatb w) em && forallb (honb (exec_solver (fun _ _ => None)) w) em &&
      (fix go (x y : list Z) : bool := match x, y with [], [] => true | a :: r, b :: s => (a =? b) && go r s | _, _ => false end) (shw w a) out
  | None => false
  end.
Lemma go_eq : forall x y, (fix go (x y : list Z) : bool := match x, y with [], [] => true | a :: r, b :: s => (a =? b) && go r s | _, _ => false end) x y = true -> x = y.
Proof. induction x as [|a x IH]; intros [|b y] H; try discriminate; auto. apply andb_prop in H as [H1 H2]. apply Z.eqb_eq in H1. f_equal; auto. Qed.
Lemma run_check_ok : forall A w0 (m : option (A * st * list fstmt)) shw out, run_check w0 m shw out = true ->
  exists a s' em w, m = Some (a, s', em) /\ Forall (gsat w) em /\ Forall (hon (exec_solver (fun _ _ => None)) w) em /\ shw w a = out.
Proof.
  intros A w0 m shw out H. unfold run_check in H. destruct m as [[[a s'] em]|]; [|discriminate].
  apply andb_prop in H as [H H3]. apply andb_prop in H as [H1 H2].
  exists a, s', em, (hexec (exec_solver (fun _ _ => None)) w0 em). split; auto. split; [apply gsatb_ok; auto|]. split; [apply honb_ok; auto|].
  apply go_eq; auto.
Qed.
End Checks.
