(** Model of the R1CS optimiser, /repo/zokrates_core/src/optimizer/*.rs.
    HashMap/HashSet are association lists / lists: their iteration order is not observable in these passes.
    None models a panic. *)
From Coq Require Import ZArith List Bool Lia.
From Verif Require Import PField SMap IR.
Import ListNotations.
Open Scope Z_scope.

(** HashMap<Variable, _>::get; inserting conses in front (overwrites) *)
Fixpoint aget {B} (k : Z) (m : list (Z * B)) : option B :=
  match m with
  | [] => None
  | (k', v) :: r => if k =? k' then Some v else aget k r
  end.
Definition vmem (v : var) (l : list var) : bool := existsb (Z.eqb v) l.

Section Optimizer.
Context {PF : PrimeField}.
Variable solve : solver -> list F -> option (list F).

(** A pass processes statements in order, threading its state, each statement becoming a list of statements
    (ir/folder.rs:49-72 fold_program; the passes are chained lazily in optimizer/mod.rs:53-58, which is the
    same as running them one after the other since each only looks at earlier statements). *)
Fixpoint run_pass {S} (step : S -> stmt -> option (S * list stmt)) (st : S) (ss : list stmt)
  : option (S * list stmt) :=
  match ss with
  | [] => Some (st, [])
  | s :: r => match step st s with
              | None => None
              | Some (st1, o1) => match run_pass step st1 r with
                                  | None => None
                                  | Some (st2, o2) => Some (st2, o1 ++ o2)
                                  end
              end
  end.
(** the same on programs with blocks: ir/folder.rs:105-115 fold_block_statement *)
Definition bstep {S} (step : S -> stmt -> option (S * list stmt)) (st : S) (b : bstmt)
  : option (S * list bstmt) :=
  match b with
  | Single s => match step st s with Some (st', o) => Some (st', map Single o) | None => None end
  | Block ss => match run_pass step st ss with Some (st', o) => Some (st', [Block o]) | None => None end
  end.
Fixpoint run_bpass {S} (step : S -> bstmt -> option (S * list bstmt)) (st : S) (ss : list bstmt)
  : option (S * list bstmt) :=
  match ss with
  | [] => Some (st, [])
  | s :: r => match step st s with
              | None => None
              | Some (st1, o1) => match run_bpass step st1 r with
                                  | None => None
                                  | Some (st2, o2) => Some (st2, o1 ++ o2)
                                  end
              end
  end.

(** ** redefinition.rs *)

(** redefinition.rs:48-54 *)
Record rstate := mkR { rsub : list (var * lincomb); rign : list var }.

(** redefinition.rs:57-69 init *)
Definition redef_init (args : list param) (ret : nat) : rstate :=
  mkR [] (vone :: map pid args ++ map vpub (seq 0 ret)).

(** redefinition.rs:216-236 fold_linear_combination *)
Definition redef_lin (m : list (var * lincomb)) (l : lincomb) : lincomb :=
  if existsb (fun t => match aget (fst t) m with Some _ => true | None => false end) l
  then flat_map (fun t => match aget (fst t) m with
                          | Some l' => lc_scale (snd t) l'
                          | None => lc_summand (snd t) (fst t)
                          end) l
  else l.
(** ir/folder.rs:148-157 fold_quadratic_combination *)
Definition redef_quad (m : list (var * lincomb)) (q : quadcomb) : quadcomb :=
  mkQ (redef_lin m (qleft q)) (redef_lin m (qright q)).

(** redefinition.rs:140-152: constant inputs are inl, the others inr *)
Definition redef_input (m : list (var * lincomb)) (q : quadcomb) : F + quadcomb :=
  let q' := q_canon (redef_quad m q) in
  match q_try_linear q' with
  | Some l => match lc_try_constant l with Some k => inl k | None => inr (q_of_lc l) end
  | None => inr q'
  end.

Definition all_consts (l : list (F + quadcomb)) : option (list F) :=
  fold_right (fun i acc => match i, acc with inl k, Some r => Some (k :: r) | _, _ => None end) (Some []) l.

(** redefinition.rs:71-187 fold_statement_cases(s, aggressive) *)
Definition redef_step (aggressive : bool) (st : rstate) (s : stmt) : option (rstate * list stmt) :=
  match s with
  | Constraint q l err =>
      let q' := redef_quad (rsub st) q in
      let l' := redef_lin (rsub st) l in
      match l' with
      | [] => Some (st, [Constraint q' l' err])
      | (v0, _) :: _ =>
          if vmem v0 (rign st) || match aget v0 (rsub st) with Some _ => true | None => false end
          then Some (st, [Constraint q' l' err])
          else match lc_try_summand l' with
               | Some (v, k) =>
                   match q_try_linear q' with
                   | Some lin => match lc_div lin k with
                                 | Some lin' => Some (mkR ((v, lc_canon lin') :: rsub st) (rign st), [])
                                 | None => None
                                 end
                   | None => Some (mkR (rsub st) (v :: rign st), [Constraint q' (lc_summand k v) err])
                   end
               | None => Some (st, [Constraint q' l' err])
               end
      end
  | Directive outs sv ins =>
      let ins' := map (redef_input (rsub st)) ins in
      match all_consts ins' with
      | Some ks =>
          match solve sv ks with
          | Some res =>
              if Nat.eqb (length res) (length outs)
              then Some (mkR (rev (combine outs (map (fun x => lc_canon (lc_const x)) res)) ++ rsub st) (rign st), [])
              else None
          | None => None
          end
      | None =>
          let ins'' := map (fun i => match i with inl k => q_of_lc (lc_summand k vone) | inr q => q end) ins' in
          Some (mkR (rsub st) (if aggressive then rign st else outs ++ rign st), [Directive outs sv ins''])
      end
  | Log f es => Some (st, [Log f (map (redef_lin (rsub st)) es)])
  end.

(** redefinition.rs:190-214 fold_statement_cases for blocks *)
Definition redef_cleanup (m : list (var * lincomb)) (ss : list stmt) : option (list stmt) :=
  fold_right (fun s acc =>
    match acc with
    | None => None
    | Some r =>
      match s with
      | Directive [] _ _ => None
      | Directive [o] _ _ => match aget o m with Some _ => Some r | None => Some (s :: r) end
      | _ => Some (s :: r)
      end
    end) (Some []) ss.
Definition redef_bstep (st : rstate) (b : bstmt) : option (rstate * list bstmt) :=
  match b with
  | Single s => match redef_step false st s with Some (st', o) => Some (st', map Single o) | None => None end
  | Block ss => match run_pass (redef_step true) st ss with
                | Some (st', o) => match redef_cleanup (rsub st') o with
                                   | Some o' => Some (st', [Block o'])
                                   | None => None
                                   end
                | None => None
                end
  end.

(** ** tautology.rs:14-25 *)
Definition taut_step (st : unit) (s : stmt) : option (unit * list stmt) :=
  match s with
  | Constraint q l err =>
      match q_try_linear q with
      | Some l' => if lc_eqb l' l then Some (tt, []) else Some (tt, [Constraint (q_of_lc l') l err])
      | None => Some (tt, [s])
      end
  | _ => Some (tt, [s])
  end.

(** ** canonicalizer.rs:7-11 *)
Definition canon_stmt (s : stmt) : stmt :=
  match s with
  | Constraint q l err => Constraint (q_canon q) (lc_canon l) err
  | Directive outs sv ins => Directive outs sv (map q_canon ins)
  | Log f es => Log f (map lc_canon es)
  end.
Definition canon_pass_step (st : unit) (s : stmt) : option (unit * list stmt) := Some (tt, [canon_stmt s]).

(** ** directive.rs *)

(** directive.rs:16-22 *)
Record dstate := mkD { dcalls : list ((solver * list quadcomb) * list var); dsub : list (var * var) }.
Definition dir_init : dstate := mkD [] [].
(** directive.rs:25-27 fold_variable *)
Definition dir_var (m : list (var * var)) (v : var) : var := match aget v m with Some u => u | None => v end.
Definition dir_lin (m : list (var * var)) (l : lincomb) : lincomb := map (fun t => (dir_var m (fst t), snd t)) l.
Definition dir_quad (m : list (var * var)) (q : quadcomb) : quadcomb := mkQ (dir_lin m (qleft q)) (dir_lin m (qright q)).
Definition call_eqb (a b : solver * list quadcomb) : bool :=
  solver_eqb (fst a) (fst b) && list_eqb q_eqb (snd a) (snd b).
Fixpoint call_get (c : solver * list quadcomb) (m : list ((solver * list quadcomb) * list var)) : option (list var) :=
  match m with
  | [] => None
  | (c', o) :: r => if call_eqb c c' then Some o else call_get c r
  end.
(** directive.rs:29-59 fold_directive_statement; the other statements are folded by ir/folder.rs *)
Definition dir_step (st : dstate) (s : stmt) : option (dstate * list stmt) :=
  let m := dsub st in
  match s with
  | Constraint q l err => Some (st, [Constraint (dir_quad m q) (dir_lin m l) err])
  | Log f es => Some (st, [Log f (map (dir_lin m) es)])
  | Directive outs sv ins =>
      let ins' := map (dir_quad m) ins in
      let outs' := map (dir_var m) outs in
      match call_get (sv, ins') (dcalls st) with
      | None => Some (mkD (((sv, ins'), outs') :: dcalls st) m, [Directive outs' sv ins'])
      | Some outs0 => Some (mkD (dcalls st) (rev (combine outs' outs0) ++ m), [])
      end
  end.

(** ** duplicate.rs:51-68; [hash] is the 64-bit hash of duplicate.rs:17-24, which ignores errors and spans *)
Variable hash : stmt -> Z.
Definition dup_step (seen : list Z) (s : stmt) : option (list Z * list stmt) :=
  let h := hash s in
  Some (h :: seen, if existsb (Z.eqb h) seen then [] else [s]).
Definition dup_bstep (seen : list Z) (b : bstmt) : option (list Z * list bstmt) :=
  match b with
  | Single s => match dup_step seen s with Some (st', o) => Some (st', map Single o) | None => None end
  | Block ss => match run_pass dup_step seen ss with Some (st', o) => Some (st', map Single o) | None => None end
  end.

(** ** mod.rs:25-67 optimize, on programs without assembly blocks: the first four passes ... *)
Definition optimize_4 (args : list param) (ret : nat) (ss : list stmt) : option (list stmt) :=
  match run_pass (redef_step false) (redef_init args ret) ss with
  | None => None
  | Some (_, s1) =>
    match run_pass taut_step tt s1 with
    | None => None
    | Some (_, s2) =>
      match run_pass canon_pass_step tt s2 with
      | None => None
      | Some (_, s3) =>
        match run_pass dir_step dir_init s3 with
        | None => None
        | Some (_, s4) => Some s4
        end
      end
    end
  end.
(** ... followed by the removal of duplicates *)
Definition optimize_flat (args : list param) (ret : nat) (ss : list stmt) : option (list stmt) :=
  match optimize_4 args ret ss with
  | None => None
  | Some s4 => match run_pass dup_step [] s4 with None => None | Some (_, s5) => Some s5 end
  end.

(** ... and on all programs *)
Definition optimize (p : prog) : option prog :=
  match run_bpass redef_bstep (redef_init (pargs p) (pret p)) (pstmts p) with
  | None => None
  | Some (_, s1) =>
    match run_bpass (bstep taut_step) tt s1 with
    | None => None
    | Some (_, s2) =>
      match run_bpass (bstep canon_pass_step) tt s2 with
      | None => None
      | Some (_, s3) =>
        match run_bpass (bstep dir_step) dir_init s3 with
        | None => None
        | Some (_, s4) => match run_bpass dup_bstep [] s4 with
                          | None => None
                          | Some (_, s5) => Some (mkProg (pargs p) (pret p) s5)
                          end
        end
      end
    end
  end.
End Optimizer.
