(** Model of /repo/zokrates_interpreter/src/lib.rs: witness generation. *)
From Coq Require Import ZArith List Bool Lia.
From Verif Require Import PField SMap IR.
Import ListNotations.
Open Scope Z_scope.

(** zokrates_field/src/lib.rs:204-208 get_required_bits = MODULUS_BITS, the bit length of the modulus. *)
Definition required_bits {PF : PrimeField} : nat := Z.to_nat (Z.log2 pp + 1).

(** [n] binary digits of [z], most significant first (BigInteger::to_bits_be). *)
Fixpoint bits_be (n : nat) (z : Z) : list bool :=
  match n with
  | O => []
  | S k => Z.testbit z (Z.of_nat k) :: bits_be k z
  end.

Section Interp.
Context {PF : PrimeField}.

(** ir/witness.rs:12-13 Witness(BTreeMap<Variable, T>) *)
Definition witness := smap F.

Definition f_of_bool (b : bool) : F := if b then f1 else f0.

(** zokrates_field/src/lib.rs:204-208 to_bits_be *)
Definition to_bits_be (x : F) : list bool := bits_be required_bits (fval x).

(** Solver::Bits, lib.rs:266-279: keep the low [n] bits, pad with zeroes on the left. *)
Definition solve_bits (n : nat) (x : F) : list F :=
  let bits := to_bits_be x in
  let kept := skipn (length bits - n) bits in
  map f_of_bool (repeat false (n - length kept) ++ kept).

(** lib.rs:173-353 execute_solver. [ext] stands for the solvers defined by ZIR functions or external circuits.
    None models an Err or a failed assertion. checked_div is the Some/None division of
    zokrates_field/src/lib.rs:340-352; BigUint::checked_div likewise. *)
Definition exec_solver (ext : Z -> list F -> option (list F)) (s : solver) (ins : list F) : option (list F) :=
  match s, ins with
  | SConditionEq, [x] => Some (if Feqb x f0 then [f0; f1] else [f1; fdiv f1 x])
  | SBits n, [x] => Some (solve_bits n x)
  | SXor, [x; y] => Some [fsub (fadd x y) (fmul (fmul (of_Z 2) x) y)]
  | SOr, [x; y] => Some [fsub (fadd x y) (fmul x y)]
  | SShaMaj, [a; b; c] => Some [fsub (fmul b c) (fmul (fsub (fsub (fmul (fmul (of_Z 2) b) c) b) c) a)]
  | SShaCh, [a; b; c] => Some [fadd (fmul a (fsub b c)) c]
  | SDiv, [a; b] => Some [if Feqb b f0 then f1 else fdiv a b]
  | SEuclid, [n; d] =>
      let q := if fval d =? 0 then 0 else fval n / fval d in
      Some [of_Z q; of_Z (fval n - fval d * q)]
  | SExt k ni no, _ =>
      if Nat.eqb (length ins) ni then
        match ext k ins with
        | Some r => if Nat.eqb (length r) no then Some r else None
        | None => None
        end
      else None
  | _, _ => None
  end.

(** Execution outcomes: the values of ExecutionResult, lib.rs:359-365, plus a panic. *)
Inductive outcome :=
| Done (w : witness) (log : list (Z * list F))
| WrongInputCount (expected received : nat)
| Unsatisfied (err : option Z)
| SolverErr
| Panic.

(** lib.rs:367-373 evaluate_lin (None: a variable is missing; the callers unwrap) *)
Definition evaluate_lin (w : witness) (l : lincomb) : option F :=
  fold_left (fun acc t => match acc, sget (fst t) w with
                          | Some a, Some v => Some (fadd a (fmul v (snd t)))
                          | _, _ => None
                          end) l (Some f0).
(** lib.rs:375-379 evaluate_quad *)
Definition evaluate_quad (w : witness) (q : quadcomb) : option F :=
  match evaluate_lin w (qleft q), evaluate_lin w (qright q) with
  | Some a, Some b => Some (fmul a b)
  | _, _ => None
  end.

(** expression.rs:212-216 is_assignee *)
Definition is_assignee (w : witness) (l : lincomb) : option var :=
  match l with
  | [(v, c)] => if Feqb c f1 then match sget v w with None => Some v | Some _ => None end else None
  | _ => None
  end.

Fixpoint opt_list {A} (l : list (option A)) : option (list A) :=
  match l with
  | [] => Some []
  | Some x :: r => match opt_list r with Some r' => Some (x :: r') | None => None end
  | None :: _ => None
  end.

(** lib.rs:102-104: write the solver results; indexing past the results panics (None) *)
Fixpoint put_outputs (w : witness) (outs : list var) (res : list F) : option witness :=
  match outs, res with
  | [], _ => Some w
  | o :: r, x :: xs => put_outputs (sput o x w) r xs
  | _ :: _, [] => None
  end.

Variable solve : solver -> list F -> option (list F).

(** lib.rs:66-131: the loop over statements of execute_with_log_stream. The log stream never fails here;
    a log entry is the format string and the evaluated expressions. *)
Fixpoint exec_stmts (w : witness) (log : list (Z * list F)) (ss : list stmt) : outcome :=
  match ss with
  | [] => Done w log
  | Constraint q l err :: r =>
      match is_assignee w l with
      | Some v => match evaluate_quad w q with
                  | Some x => exec_stmts (sput v x w) log r
                  | None => Panic
                  end
      | None => match evaluate_quad w q, evaluate_lin w l with
                | Some a, Some b => if Feqb a b then exec_stmts w log r else Unsatisfied err
                | _, _ => Panic
                end
      end
  | Directive outs s ins :: r =>
      match opt_list (map (evaluate_quad w) ins) with
      | None => Panic
      | Some xs => match solve s xs with
                   | None => SolverErr
                   | Some res => match put_outputs w outs res with
                                 | None => Panic
                                 | Some w' => exec_stmts w' log r
                                 end
                   end
      end
  | Log fmt es :: r =>
      match opt_list (map (evaluate_lin w) es) with
      | None => Panic
      | Some vs => exec_stmts w (log ++ [(fmt, vs)]) r
      end
  end.

(** lib.rs:53-64: input count check and initial witness *)
Definition init_witness (args : list param) (inputs : list F) : witness :=
  fold_left (fun w pv => sput (pid (fst pv)) (snd pv) w) (combine args inputs) (sput vone f1 []).

Definition exec_prog (args : list param) (ss : list stmt) (inputs : list F) : outcome :=
  if Nat.eqb (length args) (length inputs)
  then exec_stmts (init_witness args inputs) [] ss
  else WrongInputCount (length args) (length inputs).

End Interp.

(** ir/clean.rs:27-42 Cleaner: flatten the blocks *)
Definition clean {PF : PrimeField} (ss : list bstmt) : list stmt :=
  flat_map (fun b => match b with Single s => [s] | Block l => l end) ss.
