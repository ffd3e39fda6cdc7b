(** Model of /repo/zokrates_analysis/src/flatten_complex_types.rs: Flattener, from typed programs to ZIR.
    [None]: a panic (assert, unwrap, unreachable!, slice out of range, chunks(0)). *)
From Coq Require Import String Ascii.
From Coq Require Import ZArith NArith List Bool Lia.
From Verif Require Import PField Interp Bits Zir UintOpt Abi Typed.
Import ListNotations.
Open Scope Z_scope.

(** zokrates_ast/src/zir/identifier.rs:15-21 SourceIdentifier; a typed identifier is a number *)
Inductive sid := SBase (x : Z) | SSel (s : sid) (i : nat) | SMem (s : sid) (m : string) | SElt (s : sid) (i : nat).
Fixpoint base (s : sid) : Z := match s with SBase x => x | SSel s _ | SMem s _ | SElt s _ => base s end.
(** ZIR identifiers are numbers in Zir.v: an injective numbering of the source identifiers, as bits *)
Fixpoint pbits (p : positive) : list bool := match p with xH => [false] | xO p => true :: false :: pbits p | xI p => true :: true :: pbits p end.
Definition zbits (z : Z) : list bool := match z with Z0 => [false] | Zpos p => true :: false :: pbits p | Zneg p => true :: true :: pbits p end.
Definition cbits (c : ascii) : list bool := match c with Ascii a b c d e f g h => [a; b; c; d; e; f; g; h] end.
Fixpoint strbits (s : string) : list bool := match s with EmptyString => [false] | String c r => true :: cbits c ++ strbits r end.
Fixpoint sbits (s : sid) : list bool :=
  match s with
  | SBase x => false :: false :: zbits x
  | SSel s i => false :: true :: zbits (Z.of_nat i) ++ sbits s
  | SMem s m => true :: false :: strbits m ++ sbits s
  | SElt s i => true :: true :: zbits (Z.of_nat i) ++ sbits s
  end.
Fixpoint of_bits (l : list bool) : positive := match l with [] => xH | true :: r => xI (of_bits r) | false :: r => xO (of_bits r) end.
Definition name (s : sid) : ident := Zpos (of_bits (sbits s)).

(** l.22-62 flatten_identifier_rec: the components of a variable *)
Inductive lty := LF | LB | LU (w : uwidth).
Fixpoint flat_ids (s : sid) (t : cty) : list (sid * lty) :=
  match t with
  | CField => [(s, LF)]
  | CBool => [(s, LB)]
  | CUint w => [(s, LU w)]
  | CArray ty n => flat_map (fun i => flat_ids (SSel s i) ty) (seq 0 n)
  | CTuple ts => (fix go i l := match l with [] => [] | t :: r => flat_ids (SElt s i) t ++ go (S i) r end) O ts
  | CStruct ms => (fix go l := match l with [] => [] | (k, t) :: r => flat_ids (SMem s k) t ++ go r end) ms
  | CInt => []
  end.

Section Flatten.
Context {PF : PrimeField}.
Definition bare (w : nat) : ann := mkAnn w f0 SRUnknown.
Definition lkind (l : lty) : kind := match l with LF => KF | LB => KB | LU w => KU (bare (uwn w)) end.
Definition lptype (l : lty) : ptype := match l with LF => PF_ | LB => PB_ | LU w => PU_ (uwn w) end.

Definition popE (zs : list zexp) : option zexp := match rev zs with z :: _ => Some z | [] => None end.
(** a[i..j] *)
Definition zslice (zs : list zexp) (i j : nat) : option (list zexp) := if (i <=? j)%nat && (j <=? length zs)%nat then Some (firstn (j - i) (skipn i zs)) else None.
(** l.1035-1056: the conditional of two components *)
Definition zcond (c x y : zexp) : option zexp :=
  match zkind x, zkind y with
  | KF, KF => Some (ZCond KF c x y)
  | KB, KB => Some (ZCond KB c x y)
  | KU a, KU _ => Some (ZCond (KU (bare (uw a))) c x y)
  | _, _ => None
  end.
Fixpoint zconds (c : zexp) (xs ys : list zexp) : option (list zexp) :=
  match xs, ys with
  | [], [] => Some []
  | x :: r, y :: s => match zcond c x y, zconds c r s with Some z, Some l => Some (z :: l) | _, _ => None end
  | _, _ => None
  end.
(** l.1184-1217 conjunction_tree *)
Definition zeq (x y : zexp) : option zexp :=
  match zkind x, zkind y with
  | KF, KF => Some (ZCmp CFEq x y)
  | KB, KB => Some (ZBBin BEq x y)
  | KU _, KU _ => Some (ZCmp CUEq x y)
  | _, _ => None
  end.
Fixpoint conj_tree (fuel : nat) (v w : list zexp) : option zexp :=
  match v, w with
  | [], [] => Some (ZBVal true)
  | [x], [y] => zeq x y
  | _, _ =>
      if (length v =? length w)%nat then
        match fuel with
        | O => None
        | S f => let n := (length v / 2)%nat in
                 match conj_tree f (firstn n v) (firstn n w), conj_tree f (skipn n v) (skipn n w) with
                 | Some a, Some b => Some (ZBBin BAnd a b)
                 | _, _ => None
                 end
        end
      else None
  end.
(** l.939-999 fold_select_expression *)
Fixpoint zchunks (fuel k : nat) (zs : list zexp) : list (list zexp) :=
  match fuel with O => [] | S f => match zs with [] => [] | _ => firstn k zs :: zchunks f k (skipn k zs) end end.
Definition transpose (size : nat) (cs : list (list zexp)) : list (list zexp) :=
  fold_left (fun acc e => map (fun p => fst p ++ [snd p]) (combine acc e)) cs (repeat [] size).
Definition same_kind (a b : kind) : bool := match a, b with KF, KF | KB, KB | KU _, KU _ => true | _, _ => false end.
Definition zselect (i : zexp) (col : list zexp) : option zexp :=
  match col with
  | [] => None
  | z :: _ => if forallb (fun z' => same_kind (zkind z) (zkind z')) col then
                Some (ZSel (match zkind z with KU a => KU (bare (uw a)) | k => k end) col i) else None
  end.
Definition zsel (size : nat) (zs : list zexp) (i : zexp) : option (list zexp) :=
  match i with
  | ZUVal _ v => zslice zs (Z.to_nat v * size) ((Z.to_nat v + 1) * size)
  | _ => match size with O => None | _ => mapO (zselect i) (transpose size (zchunks (length zs) size zs)) end
  end.
(** l.843-875 fold_member_expression *)
Fixpoint moffset (m : string) (ms : list (string * cty)) : option (nat * nat) :=
  match ms with
  | [] => None
  | (k, t) :: r => if String.eqb k m then Some (O, prim_count t) else match moffset m r with Some (o, s) => Some (prim_count t + o, s)%nat | None => None end
  end.
(** the operators, on the flattened operands *)
Definition zop2 (f : zexp -> zexp -> zexp) (zss : list (list zexp)) : option (list zexp) :=
  match zss with [a; b] => match popE a, popE b with Some x, Some y => Some [f x y] | _, _ => None end | _ => None end.
Definition zop1 (f : zexp -> zexp) (zss : list (list zexp)) : option (list zexp) :=
  match zss with [a] => match popE a with Some x => Some [f x] | None => None end | _ => None end.
Definition zcmp (o : tcmp) : cmpop := match o with TFLt => CFLt | TFLe => CFLe | TULt => CULt | TULe => CULe end.
Definition comb (op : top) (zss : list (list zexp)) : option (list zexp) :=
  match op with
  | OFVal c => match zss with [] => Some [ZFVal c] | _ => None end
  | OBVal b => match zss with [] => Some [ZBVal b] | _ => None end
  | OUVal w n => match zss with [] => Some [ZUVal (bare (uwn w)) n] | _ => None end
  (* l.1084-1122 *)
  | OFBin o => zop2 (ZFBin o) zss
  | OPow n => zop1 (fun e => ZPow e n) zss
  (* l.1123-1133 *)
  | OFNeg => zop1 (fun e => ZFBin FSub (ZFVal f0) e) zss
  | OPos => zop1 (fun e => e) zss
  (* l.1250-1272 *)
  | OCmp o => zop2 (ZCmp (zcmp o)) zss
  | OEq => match zss with [a; b] => match conj_tree (length a) a b with Some z => Some [z] | None => None end | _ => None end
  | OBBin o => zop2 (ZBBin o) zss
  | ONot => zop1 ZBNot zss
  (* l.1336-1420 *)
  | OUBin w o => zop2 (ZUBin (bare (uwn w)) o) zss
  | OUNot w => zop1 (ZUNot (bare (uwn w))) zss
  | OShl w k => zop1 (fun e => ZShl (bare (uwn w)) e k) zss
  | OShr w k => zop1 (fun e => ZShr (bare (uwn w)) e k) zss
  | OUNeg w => zop1 (fun e => ZUBin (bare (uwn w)) USub (ZUVal (bare (uwn w)) 0) e) zss
  | OSel ty => match zss with [a; i] => match popE i with Some z => zsel (prim_count ty) a z | None => None end | _ => None end
  | OMem ms m => match zss with [s] => match moffset m ms with Some (o, n) => zslice s o (o + n) | None => None end | _ => None end
  (* l.877-909 fold_element_expression *)
  | OElt ts k => match zss with [e] => match nth_error ts k with Some t => let o := sum_count (firstn k ts) in zslice e o (o + prim_count t) | None => None end | _ => None end
  (* l.717-726 *)
  | OArr ty n _ => if (length (concat zss) =? n * prim_count ty)%nat then Some (concat zss) else None
  (* l.736-759; the size is that of the slice *)
  | OSlice ty f t => match zss with [a] => zslice a (f * prim_count ty) (t * prim_count ty) | _ => None end
  (* l.761-773 *)
  | ORep ty n => match zss with [e] => Some (concat (repeat e n)) | _ => None end
  (* l.796-799, l.826-829 *)
  | OTup => Some (concat zss)
  | OStr _ => Some (concat zss)
  end.

Definition flatr := option (list zstmt * list zexp).
Definition flat_list (f : texp -> flatr) : list texp -> option (list zstmt * list (list zexp)) :=
  fix go l := match l with
  | [] => Some ([], [])
  | e :: r => match f e, go r with Some a, Some b => Some (fst a ++ fst b, snd a :: snd b) | _, _ => None end
  end.
Definition flat_stmt_list (f : tstmt -> option (list zstmt)) : list tstmt -> option (list zstmt) :=
  fix go l := match l with
  | [] => Some []
  | s :: r => match f s, go r with Some a, Some b => Some (a ++ b) | _, _ => None end
  end.
Definition defs_zip (ids : list (sid * lty)) (zs : list zexp) : list zstmt := map (fun p => ZDef (name (fst (fst p))) (snd p)) (combine ids zs).
(** the statements pushed to the buffer, and the components *)
Fixpoint tflat (e : texp) : flatr :=
  match e with
  (* l.64-110 *)
  | TId t x => Some ([], map (fun p => ZId (lkind (snd p)) (name (fst p))) (flat_ids (SBase x) t))
  | TOp op args => match flat_list tflat args with Some (ss, zss) => match comb op zss with Some zs => Some (ss, zs) | None => None end | None => None end
  (* l.1001-1057 fold_conditional_expression *)
  | TCond c x y =>
      match tflat c, tflat x, tflat y with
      | Some (sc, zc), Some (sx, zx), Some (sy, zy) =>
          match popE zc with
          | Some z => match zconds z zx zy with
                      | Some zs => Some (sc ++ match sx, sy with [], [] => [] | _, _ => [ZIf z sx sy] end, zs)
                      | None => None
                      end
          | None => None
          end
      | _, _, _ => None
      end
  (* l.704-710 and the other Block cases *)
  | TBlock ss e => match flat_stmt_list tflat_stmt ss, tflat e with Some a, Some (b, zs) => Some (a ++ b, zs) | _, _ => None end
  end
(** l.591-695 fold_statement *)
with tflat_stmt (s : tstmt) : option (list zstmt) :=
  match s with
  | TDef x t e => match tflat e with
                  | Some (ss, zs) => let ids := flat_ids (SBase x) t in
                      if (length ids =? length zs)%nat then Some (ss ++ defs_zip ids zs) else None
                  | None => None
                  end
  | TAssert e err => match tflat e with Some (ss, zs) => match popE zs with Some z => Some (ss ++ [ZAssert z err]) | None => None end | None => None end
  | TEmb x t em args => match flat_list tflat args with Some (ss, zss) => Some (ss ++ [ZEmbed (map (fun p => name (fst p)) (flat_ids (SBase x) t)) em (concat zss)]) | None => None end
  | TLog fmt args => match flat_list tflat args with Some (ss, zss) => Some (ss ++ [ZLog fmt (concat zss)]) | None => None end
  end.
Definition tflats := flat_list tflat.
Definition tflat_stmts := flat_stmt_list tflat_stmt.
(** l.191-203 fold_declaration_parameter; l.1451-1480 fold_function *)
Definition flat_param (q : Z * cty * bool) : list zparam := map (fun p => mkZParam (name (fst p)) (lptype (snd p)) (snd q)) (flat_ids (SBase (fst (fst q))) (snd (fst q))).
Definition flatten (p : tprog) : option zprog :=
  match tflat_stmts (tbody p), tflat (tret p) with
  | Some ss, Some (sr, zs) => Some (mkZProg (flat_map flat_param (targs p)) (ss ++ sr ++ [ZReturn zs]) (prim_count (tretty p)))
  | _, _ => None
  end.
End Flatten.
