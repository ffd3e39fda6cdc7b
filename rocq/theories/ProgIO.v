(** Program files. Models zokrates_ast/src/ir/serialize.rs and ir/solver_indexer.rs, on a 64-bit target.
    Simplifications: source spans are always absent (null); error messages and log formats are opaque numbers, written as CBOR
    integers; a struct is read only with its fields in the order in which they are written (serde would also accept another order). *)
From Coq Require Import String.
From Coq Require Import ZArith List Bool Lia.
From Verif Require Import PField SMap IR IRSpec Interp Optimizer Bytes WitnessIO Cbor Sha256.
Import ListNotations.
Open Scope Z_scope.

(** ** Curves *)
(** serialize.rs:16-33: the six fields a program file can be over *)
Inductive curve := Bls12_381 | Bn128 | Bls12_377 | Bw6_761 | Pallas | Vesta.
Definition all_curves : list curve := [Bls12_381; Bn128; Bls12_377; Bw6_761; Pallas; Vesta].
(** the moduli of the scalar fields (crates ark_bls12_381, ark_bn254, ark_bls12_377, ark_bw6_761, ark_pallas, ark_vesta) *)
Definition modulus (c : curve) : Z :=
  match c with
  | Bls12_381 => 52435875175126190479447740508185965837690552500527637822603658699938581184513
  | Bn128 => 21888242871839275222246405745257275088548364400416034343698204186575808495617
  | Bls12_377 => 8444461749428370424248824938781546531375899335154063827935233455917409239041
  | Bw6_761 => 258664426012969094010652733694893533536393512754914660539884262666720468348340822774968888139573360124440321458177
  | Pallas => 28948022309329048855892746252171976963363056481941647379679742748393362948097
  | Vesta => 28948022309329048855892746252171976963363056481941560715954676764349967630337
  end.
(** zokrates_field/src/{bls12_381,bn128,bls12_377,bw6_761,pallas,vesta}.rs: prime_field!(name, ..), Field::name *)
Definition curve_name (c : curve) : string :=
  match c with
  | Bls12_381 => "bls12_381" | Bn128 => "bn128" | Bls12_377 => "bls12_377"
  | Bw6_761 => "bw6_761" | Pallas => "pallas" | Vesta => "vesta"
  end%string.
(** zokrates_field/src/lib.rs:283-293 Field::id: the first four bytes of the SHA-256 of the modulus, written as its 64-bit limbs *)
Definition field_id (m : Z) : list Z := firstn 4 (sha256 (le (Z.to_nat (8 * ((Z.log2 m + 1 + 63) / 64))) m)).
(** serialize.rs:67-76 ProgEnum::curve *)
Definition reported_curve (c : curve) : string :=
  match c with
  | Bn128 => curve_name Bn128
  | Bls12_381 => curve_name Bls12_381
  | Bls12_377 => curve_name Bls12_377
  | Bw6_761 => curve_name Bw6_761
  | Pallas => curve_name Bls12_377
  | Vesta => curve_name Bw6_761
  end.

(** ** Header *)
(** serialize.rs:13-14 *)
Definition zok_magic : list Z := [90; 79; 75; 0].
Definition zok_version : list Z := [3; 0; 0; 0].
(** serialize.rs:78-121 SectionType (its u32), Section *)
Record section := mkSection { sty : Z; soff : Z; slen : Z }.
(** serialize.rs:123-131 *)
Record header := mkHeader { hmagic : list Z; hversion : list Z; hcurve : list Z; hcount : Z; hret : Z;
  hparams : section; hcons : section; hsolvers : section; hmodules : section }.
(** serialize.rs:134-149 *)
Definition write_section (s : section) : list Z := le 4 (sty s) ++ le 8 (soff s) ++ le 8 (slen s).
Definition write_header (h : header) : list Z :=
  hmagic h ++ hversion h ++ hcurve h ++ le 4 (hcount h) ++ le 4 (hret h) ++
  write_section (hparams h) ++ write_section (hcons h) ++ write_section (hsolvers h) ++ write_section (hmodules h).
(** serialize.rs:181-190: an unknown section type is an error *)
Definition read_section : reader section :=
  rbind (read_le 4) (fun t => if (1 <=? t) && (t <=? 4) then
    rbind (read_le 8) (fun o => rbind (read_le 8) (fun l => rret (mkSection t o l))) else rfail).
(** serialize.rs:151-179 *)
Definition read_header : reader header :=
  rbind (read_exact 4) (fun m => rbind (read_exact 4) (fun v => rbind (read_exact 4) (fun c =>
  rbind (read_le 4) (fun cc => rbind (read_le 4) (fun rc =>
  rbind read_section (fun s1 => rbind read_section (fun s2 => rbind read_section (fun s3 => rbind read_section (fun s4 =>
  rret (mkHeader m v c cc rc s1 s2 s3 s4)))))))))).
(** serialize.rs:196: size_of::<ProgHeader>() bytes are reserved: 3 * 4 + 2 * 4 + 4 * 24 = 116, aligned to 8 *)
Definition reserved : nat := 120.

(** ** CBOR encodings of the derived instances *)
Definition listZ_eqb : list Z -> list Z -> bool := list_eqb Z.eqb.
(** derive(Serialize) on a struct: a map from field names to values *)
Definition struct (fs : list (string * item)) : item := IMap (map (fun kv => (key (fst kv), snd kv)) fs).
Fixpoint unfields (ks : list string) (l : list (item * item)) : option (list item) :=
  match ks, l with
  | [], [] => Some []
  | k :: ks', (IText t, v) :: r => if listZ_eqb t (txt k) then match unfields ks' r with Some vs => Some (v :: vs) | None => None end else None
  | _, _ => None
  end.
Definition unstruct (ks : list string) (i : item) : option (list item) := match i with IMap l => unfields ks l | _ => None end.
(** derive(Serialize) on an enum: a unit variant is its name, a newtype variant a map with one entry *)
Definition variant (n : string) (i : item) : item := IMap [(key n, i)].

Definition all_some {A} (l : list (option A)) : option (list A) := opt_list l.
Definition of_arr {A} (f : item -> option A) (i : item) : option (list A) := match i with IArr l => all_some (map f l) | _ => None end.
Definition of_uint (i : item) : option Z := match i with IUint n => Some n | _ => None end.
(** usize from u64; isize from i64 *)
Definition of_usize (i : item) : option nat := match i with IUint n => Some (Z.to_nat n) | _ => None end.
Definition of_isize (i : item) : option Z :=
  match i with IUint n => if n <? 2 ^ 63 then Some n else None | INint n => if n <? 2 ^ 63 then Some (- 1 - n) else None | _ => None end.

Section ProgIO.
Context {PF : PrimeField}.

(** common/flat/variable.rs:10-13 *)
Definition var_item (v : var) : item := struct [("id"%string, iint v)].
Definition var_of (i : item) : option var := match unstruct ["id"%string] i with Some [a] => of_isize a | _ => None end.
(** zokrates_field/src/lib.rs:547-560 Serialize (ark CanonicalSerialize), :574-581 visit_bytes (ark CanonicalDeserialize) *)
Definition field_item (x : F) : item := IBytes (le canon_bytes (fval x)).
Definition field_of (i : item) : option F :=
  match i with IBytes l => match read_le canon_bytes l with Some (x, _) => from_repr x | None => None end | _ => None end.
(** ir/expression.rs:71-76 LinComb{span, value}; :12-18 QuadComb{span, left, right} *)
Definition summand_item (t : var * F) : item := IArr [var_item (fst t); field_item (snd t)].
Definition summand_of (i : item) : option (var * F) :=
  match i with IArr [a; b] => match var_of a, field_of b with Some v, Some x => Some (v, x) | _, _ => None end | _ => None end.
Definition lc_item (l : lincomb) : item := struct [("span"%string, INull); ("value"%string, IArr (map summand_item l))].
Definition lc_of (i : item) : option lincomb := match unstruct ["span"%string; "value"%string] i with Some [_; v] => of_arr summand_of v | _ => None end.
Definition q_item (q : quadcomb) : item := struct [("span"%string, INull); ("left"%string, lc_item (qleft q)); ("right"%string, lc_item (qright q))].
Definition q_of (i : item) : option quadcomb :=
  match unstruct ["span"%string; "left"%string; "right"%string] i with
  | Some [_; a; b] => match lc_of a, lc_of b with Some l, Some r => Some (mkQ l r) | _, _ => None end
  | _ => None
  end.
(** common/solvers.rs:5-29 *)
Definition solver_item (s : solver) : item :=
  match s with
  | SConditionEq => key "ConditionEq" | SBits n => variant "Bits" (IUint (Z.of_nat n)) | SDiv => key "Div" | SXor => key "Xor" | SOr => key "Or"
  | SShaMaj => key "ShaAndXorAndXorAnd" | SShaCh => key "ShaCh" | SEuclid => key "EuclideanDiv"
  | SExt k a b => variant "Ref" (struct [("index"%string, IUint k); ("signature"%string, IArr [IUint (Z.of_nat a); IUint (Z.of_nat b)])])
  end.
Definition solver_of (i : item) : option solver :=
  match i with
  | IText t =>
      if listZ_eqb t (txt "ConditionEq") then Some SConditionEq else if listZ_eqb t (txt "Div") then Some SDiv
      else if listZ_eqb t (txt "Xor") then Some SXor else if listZ_eqb t (txt "Or") then Some SOr
      else if listZ_eqb t (txt "ShaAndXorAndXorAnd") then Some SShaMaj else if listZ_eqb t (txt "ShaCh") then Some SShaCh
      else if listZ_eqb t (txt "EuclideanDiv") then Some SEuclid else None
  | IMap [(IText t, v)] =>
      if listZ_eqb t (txt "Bits") then match of_usize v with Some n => Some (SBits n) | None => None end
      else if listZ_eqb t (txt "Ref") then
        match unstruct ["index"%string; "signature"%string] v with
        | Some [k; IArr [a; b]] => match of_uint k, of_usize a, of_usize b with Some k, Some a, Some b => Some (SExt k a b) | _, _, _ => None end
        | _ => None
        end
      else None
  | _ => None
  end.
Definition err_item (e : option Z) : item := match e with None => INull | Some k => IUint k end.
Definition err_of (i : item) : option (option Z) := match i with INull => Some None | IUint k => Some (Some k) | _ => None end.
(** ir/mod.rs:34-43, 119-128, common/statements.rs:110-118, 155-164 *)
Definition stmt_item (s : stmt) : item :=
  match s with
  | Constraint q l e => variant "Constraint" (struct [("span"%string, INull); ("quad"%string, q_item q); ("lin"%string, lc_item l); ("error"%string, err_item e)])
  | Directive outs sv ins => variant "Directive" (struct [("span"%string, INull); ("inputs"%string, IArr (map q_item ins)); ("outputs"%string, IArr (map var_item outs)); ("solver"%string, solver_item sv)])
  | Log f es => variant "Log" (struct [("span"%string, INull); ("format_string"%string, IUint f); ("expressions"%string, IArr (map lc_item es))])
  end.
Definition payload_of (t : list Z) (v : item) : option stmt :=
  if listZ_eqb t (txt "Constraint") then
    match unstruct ["span"%string; "quad"%string; "lin"%string; "error"%string] v with
    | Some [_; q; l; e] => match q_of q, lc_of l, err_of e with Some q, Some l, Some e => Some (Constraint q l e) | _, _, _ => None end
    | _ => None
    end
  else if listZ_eqb t (txt "Directive") then
    match unstruct ["span"%string; "inputs"%string; "outputs"%string; "solver"%string] v with
    | Some [_; i; o; s] => match of_arr q_of i, of_arr var_of o, solver_of s with Some i, Some o, Some s => Some (Directive o s i) | _, _, _ => None end
    | _ => None
    end
  else if listZ_eqb t (txt "Log") then
    match unstruct ["span"%string; "format_string"%string; "expressions"%string] v with
    | Some [_; f; e] => match of_uint f, of_arr lc_of e with Some f, Some e => Some (Log f e) | _, _ => None end
    | _ => None
    end
  else None.
(** serde_cbor::Deserializer::deserialize_enum: a map with one entry, or (legacy) an array of the variant name and its content *)
Definition stmt_of (i : item) : option stmt :=
  match i with
  | IMap [(IText t, v)] => payload_of t v
  | IArr [IText t; v] => payload_of t v
  | _ => None
  end.
(** common/flat/parameter.rs:9-17 *)
Definition param_item (p : param) : item := struct [("span"%string, INull); ("id"%string, var_item (pid p)); ("private"%string, IBool (pprivate p))].
Definition param_of (i : item) : option param :=
  match unstruct ["span"%string; "id"%string; "private"%string] i with
  | Some [_; v; IBool b] => match var_of v with Some v => Some (mkParam v b) | None => None end
  | _ => None
  end.
(** common/position.rs:23-26 ModuleMap{modules: BTreeMap<u64, PathBuf>} *)
Definition modules_item (m : list (Z * list Z)) : item := struct [("modules"%string, IMap (map (fun kv => (IUint (fst kv), IText (snd kv))) m))].
Definition modules_of (i : item) : option (list (Z * list Z)) :=
  match unstruct ["modules"%string] i with
  | Some [IMap l] => all_some (map (fun kv => match kv with (IUint k, IText p) => Some (k, p) | _ => None end) l)
  | _ => None
  end.

(** ** The solver table: ir/solver_indexer.rs *)
(** A ZIR function is identified by a number; [hash] is its 64-bit hash. State: the table and the map from hashes to indices. *)
Record idx_state := mkIdx { table : list Z; index_map : list (Z * nat) }.
Fixpoint lookup (h : Z) (m : list (Z * nat)) : option nat := match m with [] => None | (k, i) :: r => if h =? k then Some i else lookup h r end.
(** solver_indexer.rs:30-57 fold_directive_statement; the other statements are unchanged *)
Definition index_stmt (hash : Z -> Z) (st : idx_state) (s : stmt) : idx_state * stmt :=
  match s with
  | Directive outs (SExt k a b) ins =>
      match lookup (hash k) (index_map st) with
      | Some i => (st, Directive outs (SExt (Z.of_nat i) a b) ins)
      | None => let i := length (table st) in
                (mkIdx (table st ++ [k]) ((hash k, i) :: index_map st), Directive outs (SExt (Z.of_nat i) a b) ins)
      end
  | _ => (st, s)
  end.
Fixpoint index_stmts (hash : Z -> Z) (st : idx_state) (ss : list stmt) : idx_state * list stmt :=
  match ss with
  | [] => (st, [])
  | s :: r => let (st1, s') := index_stmt hash st s in let (st2, r') := index_stmts hash st1 r in (st2, s' :: r')
  end.

(** ** Files *)
(** the serialisation of the ZIR functions themselves is a parameter: the content of Solver::Zir, and its decoding *)
Context (zir_item : Z -> item) (zir_of : item -> option Z).
Definition table_item (tb : list Z) : item := IArr (map (fun k => variant "Zir" (zir_item k)) tb).
Definition table_of : item -> option (list Z) :=
  of_arr (fun i => match i with IMap [(IText t, v)] => if listZ_eqb t (txt "Zir") then zir_of v else None | _ => None end).

Definition is_constraint (s : stmt) : bool := match s with Constraint _ _ _ => true | _ => false end.
Definition mklen (l : list Z) : Z := Z.of_nat (length l).
(** serialize.rs:192-285: the reserved space, the four sections, then the header over the reserved space. The module map is written under the
    tag Solvers (3). Block statements cannot be serialised (serde(skip)): an error. The counts are cast to u32. *)
Definition file_of (hash : Z -> Z) (id : list Z) (args : list param) (ret : nat) (ss : list stmt) (mods : list (Z * list Z)) : list Z :=
  let (st, ss') := index_stmts hash (mkIdx [] []) ss in
  let s1 := enc (IArr (map param_item args)) in
  let s2 := flat_map (fun s => enc (stmt_item s)) ss' in
  let s3 := enc (table_item (table st)) in
  let s4 := enc (modules_item mods) in
  let o1 := Z.of_nat reserved in let o2 := o1 + mklen s1 in let o3 := o2 + mklen s2 in let o4 := o3 + mklen s3 in
  let h := mkHeader zok_magic zok_version id (Z.of_nat (length (filter is_constraint ss)) mod 2 ^ 32) (Z.of_nat ret mod 2 ^ 32)
    (mkSection 1 o1 (mklen s1)) (mkSection 2 o2 (mklen s2)) (mkSection 3 o3 (mklen s3)) (mkSection 3 o4 (mklen s4)) in
  let hb := write_header h in
  hb ++ repeat 0 (reserved - length hb) ++ s1 ++ s2 ++ s3 ++ s4.
Fixpoint unblock (ss : list bstmt) : option (list stmt) :=
  match ss with [] => Some [] | Single s :: r => match unblock r with Some l => Some (s :: l) | None => None end | Block _ :: _ => None end.
Definition serialize (hash : Z -> Z) (p : prog) (mods : list (Z * list Z)) : option (list Z) :=
  match unblock (pstmts p) with Some ss => Some (file_of hash (field_id pp) (pargs p) (pret p) ss mods) | None => None end.

(** what a program file gives: the program, the solver table and the module map *)
Record loaded := mkLoaded { lprog : prog; ltable : list Z; lmodules : list (Z * list Z) }.
(** serialize.rs:287-299 UnwrappedStreamDeserializer: the statements up to the end of the input or the first that cannot be read *)
Fixpoint stream (fuel : nat) (bs : list Z) : list stmt :=
  match fuel with
  | O => []
  | S f => match read_item bs with
           | Some (i, rest) => match stmt_of i with Some s => s :: stream f rest | None => [] end
           | None => []
           end
  end.
Definition at_ {A} (f : item -> option A) (bs : list Z) (s : section) : option A :=
  match read_item (skipn (Z.to_nat (soff s)) bs) with Some (i, _) => f i | None => None end.
(** serialize.rs:310-366 read: a failure to read the parameters, the solvers or the module map panics (None) *)
Definition read_prog (h : header) (bs : list Z) : option loaded :=
  match at_ (of_arr param_of) bs (hparams h), at_ table_of bs (hsolvers h), at_ modules_of bs (hmodules h) with
  | Some args, Some tb, Some mods =>
      let body := skipn (Z.to_nat (soff (hcons h))) bs in
      Some (mkLoaded (mkProg args (Z.to_nat (hret h)) (map Single (stream (S (length body)) body))) tb mods)
  | _, _, _ => None
  end.
End ProgIO.

(** serialize.rs:368-397 deserialize: the header is read and checked, then the file is read over the field the curve id names *)
Inductive rejected := InvalidHeader | InvalidMagic | InvalidVersion | UnknownCurve.
Definition identify (bs : list Z) : (header * curve) + rejected :=
  match read_header bs with
  | None => inr InvalidHeader
  | Some (h, _) =>
      if negb (listZ_eqb (hmagic h) zok_magic) then inr InvalidMagic
      else if negb (listZ_eqb (hversion h) zok_version) then inr InvalidVersion
      else match find (fun c => listZ_eqb (hcurve h) (field_id (modulus c))) all_curves with
           | Some c => inl (h, c)
           | None => inr UnknownCurve
           end
  end.
