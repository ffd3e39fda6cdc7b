(** Specification: the fragment of SMT-LIB 2.6 used by the generated files, read from the text.
    Independent of the code: a reader for S-expressions (comments, quoted symbols, numerals), the commands declare-const (sort Int) and
    assert, and the meaning of and, =, +, *, mod over the integers. [None]: a solver rejects the script. *)
From Coq Require Import String Ascii.
From Coq Require Import ZArith NArith List Bool.
From Verif Require Import Str.
Import ListNotations.
Open Scope Z_scope.

(** ** Tokens *)
Inductive tok := TOpen | TClose | TNum (n : Z) | TSym (s : string).
Inductive mode := MStart | MComment | MQuote (s : string) | MWord (s : string).
Definition newline : ascii := ascii_of_N 10.
Definition snoc (s : string) (c : ascii) : string := (s ++ String c EmptyString)%string.
(** numeral: 0 or a non-empty sequence of digits not starting with 0 *)
Definition word (s : string) : option tok :=
  match digits 10 s with
  | Some [0] => Some (TNum 0)
  | Some (0 :: _) => None
  | Some [] => None
  | Some ds => Some (TNum (value 10 ds))
  | None => Some (TSym s)
  end.
Definition push (t : option tok) (l : option (list tok)) : option (list tok) := match t, l with Some t, Some l => Some (t :: l) | _, _ => None end.
Definition start (c : ascii) (k : mode -> option (list tok)) : option (list tok) :=
  if Ascii.eqb c "("%char then push (Some TOpen) (k MStart)
  else if Ascii.eqb c ")"%char then push (Some TClose) (k MStart)
  else if Ascii.eqb c " "%char || Ascii.eqb c newline then k MStart
  else if Ascii.eqb c ";"%char then k MComment
  else if Ascii.eqb c "|"%char then k (MQuote EmptyString)
  else k (MWord (String c EmptyString)).
Definition delim (c : ascii) : bool := Ascii.eqb c "("%char || Ascii.eqb c ")"%char || Ascii.eqb c " "%char || Ascii.eqb c newline || Ascii.eqb c ";"%char || Ascii.eqb c "|"%char.
Fixpoint lex (m : mode) (s : string) : option (list tok) :=
  match s with
  | EmptyString => match m with MStart | MComment => Some [] | MQuote _ => None | MWord a => push (word a) (Some []) end
  | String c r =>
      match m with
      | MStart => start c (fun m => lex m r)
      | MComment => if Ascii.eqb c newline then lex MStart r else lex MComment r
      | MQuote a => if Ascii.eqb c "|"%char then push (Some (TSym a)) (lex MStart r) else lex (MQuote (snoc a c)) r
      | MWord a => if delim c then push (word a) (start c (fun m => lex m r)) else lex (MWord (snoc a c)) r
      end
  end.

(** ** S-expressions *)
Inductive sx := Num (n : Z) | Sym (s : string) | Lst (l : list sx).
(** the open lists, innermost first, each in reverse *)
Fixpoint parse (st : list (list sx)) (ts : list tok) : option (list sx) :=
  match ts with
  | [] => match st with [l] => Some (rev l) | _ => None end
  | TOpen :: r => parse ([] :: st) r
  | TClose :: r => match st with a :: b :: st' => parse ((Lst (rev a) :: b) :: st') r | _ => None end
  | TNum n :: r => match st with a :: st' => parse ((Num n :: a) :: st') r | [] => None end
  | TSym s :: r => match st with a :: st' => parse ((Sym s :: a) :: st') r | [] => None end
  end.
Definition read_script (s : string) : option (list sx) := match lex MStart s with Some ts => parse [[]] ts | None => None end.

(** ** Meaning *)
Definition symbols := list string.
Definition known (D : symbols) (s : string) : bool := existsb (String.eqb s) D.
Fixpoint all_some {A} (l : list (option A)) : option (list A) :=
  match l with [] => Some [] | None :: _ => None | Some a :: r => match all_some r with Some s => Some (a :: s) | None => None end end.
Definition sum (l : list Z) : Z := fold_right Z.add 0 l.
Definition prod (l : list Z) : Z := fold_right Z.mul 1 l.
(** integer terms. [mod] is Euclidean: for a positive divisor it is the remainder in [0, divisor); for a zero divisor the
    solver may choose any function of the dividend: [z0] *)
Fixpoint int_term (z0 : Z -> Z) (D : symbols) (m : string -> Z) (e : sx) : option Z :=
  match e with
  | Num n => Some n
  | Sym s => if known D s then Some (m s) else None
  | Lst (Sym f :: args) =>
      match all_some (map (int_term z0 D m) args) with
      | Some vs =>
          if String.eqb f "+" then match vs with _ :: _ :: _ => Some (sum vs) | _ => None end
          else if String.eqb f "*" then match vs with _ :: _ :: _ => Some (prod vs) | _ => None end
          else if String.eqb f "mod" then match vs with [a; b] => Some (if b =? 0 then z0 a else a mod Z.abs b) | _ => None end
          else None
      | None => None
      end
  | Lst _ => None
  end.
Fixpoint formula (z0 : Z -> Z) (D : symbols) (m : string -> Z) (e : sx) : option bool :=
  match e with
  | Lst (Sym f :: args) =>
      if String.eqb f "and" then match args with [] => None | _ => option_map (forallb (fun b => b)) (all_some (map (formula z0 D m) args)) end
      else if String.eqb f "=" then match args with [a; b] => match int_term z0 D m a, int_term z0 D m b with Some x, Some y => Some (x =? y) | _, _ => None end | _ => None end
      else None
  | _ => None
  end.
(** a script under an interpretation of the symbols: are all assertions true? *)
Fixpoint commands (z0 : Z -> Z) (D : symbols) (m : string -> Z) (l : list sx) : option bool :=
  match l with
  | [] => Some true
  | Lst [Sym "declare-const"; Sym s; Sym "Int"] :: r => if known D s then None else commands z0 (s :: D) m r
  | Lst [Sym "assert"; e] :: r => match formula z0 D m e, commands z0 D m r with Some b, Some c => Some (b && c) | _, _ => None end
  | _ => None
  end.
(** [script z0 s m]: [Some true] when the integers given by [m] are a model of the script [s] *)
Definition script (z0 : Z -> Z) (s : string) (m : string -> Z) : option bool := match read_script s with Some l => commands z0 [] m l | None => None end.
