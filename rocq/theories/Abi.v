(** Model of zokrates_abi/src/lib.rs and of ConcreteType::get_primitive_count (zokrates_ast/src/typed/types.rs:997-1019). *)
From Coq Require Import String Ascii.
From Coq Require Import ZArith List Bool Lia.
From Verif Require Import PField Str Interp.
Import ListNotations.
Open Scope Z_scope.

Inductive uwidth := W8 | W16 | W32 | W64.
Definition bits_of (w : uwidth) : Z := match w with W8 => 8 | W16 => 16 | W32 => 32 | W64 => 64 end.
(** typed/types.rs ConcreteType. CInt: the type of untyped constants, which no signature of a compiled program contains. A struct is its
    list of members (its name and module play no role here). *)
Inductive cty := CField | CBool | CUint (w : uwidth) | CArray (ty : cty) (n : nat) | CTuple (ts : list cty) | CStruct (ms : list (string * cty)) | CInt.

Section Abi.
Context {PF : PrimeField}.
(** lib.rs:37-48 Value *)
Inductive value_ := VField (x : F) | VUint (w : uwidth) (n : Z) | VBool (b : bool) | VArray (l : list value_) | VTuple (l : list value_) | VStruct (l : list (string * value_)).

(** types.rs:999-1018 get_primitive_count; [usize] overflow is not modelled *)
Fixpoint prim_count (t : cty) : nat :=
  match t with
  | CField | CBool | CUint _ => 1
  | CArray ty n => n * prim_count ty
  | CTuple ts => (fix go l := match l with [] => O | t :: r => (prim_count t + go r)%nat end) ts
  | CStruct ms => (fix go l := match l with [] => O | (_, t) :: r => (prim_count t + go r)%nat end) ms
  | CInt => O
  end.
(** lib.rs:106-121 encode *)
Fixpoint encode (v : value_) : list F :=
  match v with
  | VField x => [x]
  | VUint _ n => [of_Z n]
  | VBool b => [of_Z (if b then 1 else 0)]
  | VArray l => flat_map encode l
  | VTuple l => flat_map encode l
  | VStruct l => flat_map (fun kv => encode (snd kv)) l
  end.
(** Vec::pop *)
Definition pop (raw : list F) : option F := match rev raw with x :: _ => Some x | [] => None end.
(** slice::chunks(k): panics when k is 0; the last chunk may be shorter *)
Fixpoint chunks_aux (fuel k : nat) (raw : list F) : list (list F) :=
  match fuel with O => [] | Datatypes.S f => match raw with [] => [] | _ => firstn k raw :: chunks_aux f k (skipn k raw) end end.
Definition chunks (k : nat) (raw : list F) : option (list (list F)) := match k with O => None | _ => Some (chunks_aux (length raw) k raw) end.
(** lib.rs:142-198 decode; [None]: a panic (unwrap, unreachable!, out of range slice, chunks(0)). The scan over members is written with the
    rest of the slice instead of an index: raw[s..s+k] panics exactly when fewer than k elements are left. *)
Fixpoint decode (t : cty) (raw : list F) : option value_ :=
  match t with
  | CField => option_map VField (pop raw)
  | CUint w => match pop raw with Some x => if fval x <? 2 ^ bits_of w then Some (VUint w (fval x)) else None | None => None end
  | CBool => match pop raw with Some x => if Feqb x f0 then Some (VBool false) else if Feqb x f1 then Some (VBool true) else None | None => None end
  | CArray ty n => match chunks (prim_count ty) raw with Some cs => option_map VArray (opt_list (map (decode ty) cs)) | None => None end
  | CTuple ts =>
      option_map VTuple ((fix go l raw := match l with
        | [] => Some []
        | t :: r => if (prim_count t <=? length raw)%nat then
                      match decode t (firstn (prim_count t) raw), go r (skipn (prim_count t) raw) with Some v, Some vs => Some (v :: vs) | _, _ => None end
                    else None
        end) ts raw)
  | CStruct ms =>
      option_map VStruct ((fix go l raw := match l with
        | [] => Some []
        | (k, t) :: r => if (prim_count t <=? length raw)%nat then
                      match decode t (firstn (prim_count t) raw), go r (skipn (prim_count t) raw) with Some v, Some vs => Some ((k, v) :: vs) | _, _ => None end
                    else None
        end) ms raw)
  | CInt => None
  end.
(** lib.rs:123-140 Values::decode *)
Fixpoint decode_values (ts : list cty) (raw : list F) : option (list value_) :=
  match ts with
  | [] => Some []
  | t :: r => if (prim_count t <=? length raw)%nat then
                match decode t (firstn (prim_count t) raw), decode_values r (skipn (prim_count t) raw) with Some v, Some vs => Some (v :: vs) | _, _ => None end
              else None
  end.
(** lib.rs:200-204 *)
Definition encode_values (vs : list value_) : list F := flat_map encode vs.

(** ** Specification: the values of a type *)
Fixpoint has_type (v : value_) (t : cty) {struct v} : Prop :=
  match v, t with
  | VField _, CField => True
  | VBool _, CBool => True
  | VUint w n, CUint w' => w = w' /\ 0 <= n < 2 ^ bits_of w
  | VArray l, CArray ty n => length l = n /\ (fix go l := match l with [] => True | v :: r => has_type v ty /\ go r end) l
  | VTuple l, CTuple ts => (fix go l ts := match l, ts with [], [] => True | v :: r, t :: s => has_type v t /\ go r s | _, _ => False end) l ts
  | VStruct l, CStruct ms => (fix go l ms := match l, ms with [], [] => True | (k, v) :: r, (k', t) :: s => k = k' /\ has_type v t /\ go r s | _, _ => False end) l ms
  | _, _ => False
  end.
(** no array whose elements take no field element *)
Fixpoint no_empty (t : cty) : Prop :=
  match t with
  | CArray ty n => prim_count ty <> O /\ no_empty ty
  | CTuple ts => (fix go l := match l with [] => True | t :: r => no_empty t /\ go r end) ts
  | CStruct ms => (fix go l := match l with [] => True | (_, t) :: r => no_empty t /\ go r end) ms
  | _ => True
  end.
End Abi.

(** ** JSON *)
(** serde_json::Value; an object is a map from distinct keys (the feature preserve_order keeps them in order of insertion). A number is opaque. *)
Inductive json := JNull | JBool (b : bool) | JNum (n : Z) | JString (s : string) | JArray (l : list json) | JObject (m : list (string * json)).
(** serde_json::Map::insert (replaces the value of a key that is present) and remove *)
Fixpoint minsert (k : string) (v : json) (m : list (string * json)) : list (string * json) :=
  match m with [] => [(k, v)] | (k', v') :: r => if String.eqb k k' then (k, v) :: r else (k', v') :: minsert k v r end.
Fixpoint mremove (k : string) (m : list (string * json)) : option (json * list (string * json)) :=
  match m with
  | [] => None
  | (k', v') :: r => if String.eqb k k' then Some (v', r) else match mremove k r with Some (v, r') => Some (v, (k', v') :: r') | None => None end
  end.
Section Json.
Context {PF : PrimeField}.
(** lib.rs:206-235 into_serde_json *)
Fixpoint to_json (v : value_) : json :=
  match v with
  | VField x => JString (to_dec_string x)
  | VUint W8 n => JString (hex_string 2 n)
  | VUint W16 n => JString (hex_string 4 n)
  | VUint W32 n => JString (hex_string 8 n)
  | VUint W64 n => JString (hex_string 16 n)
  | VBool b => JBool b
  | VArray l => JArray (map to_json l)
  | VTuple l => JArray (map to_json l)
  | VStruct l => JObject ((fix go l acc := match l with [] => acc | (k, v) :: r => go r (minsert k (to_json v) acc) end) l [])
  end.
(** lib.rs:243-251: a decimal numeral, else a hexadecimal one *)
Definition parse_field (s : string) : option F := match try_from_dec_str s with Some x => Some x | None => try_from_str 16 (trim_0x s) end.
(** lib.rs:252-275 *)
Definition parse_uint (w : uwidth) (s : string) : option Z := match uint_parse 10 (bits_of w) s with Some n => Some n | None => uint_parse 16 (bits_of w) (trim_0x s) end.
(** lib.rs:239-345 parse_value; [None]: an error (which one is not modelled) *)
Fixpoint parse_value (t : cty) (j : json) : option value_ :=
  match t, j with
  | CField, JString s => option_map VField (parse_field s)
  | CUint w, JString s => option_map (VUint w) (parse_uint w s)
  | CBool, JBool b => Some (VBool b)
  | CArray ty n, JArray a => if (length a =? n)%nat then option_map VArray (opt_list (map (parse_value ty) a)) else None
  | CTuple ts, JArray a => if (length a =? length ts)%nat then
      option_map VTuple ((fix go ts a := match ts, a with t :: r, j :: b => match parse_value t j, go r b with Some v, Some vs => Some (v :: vs) | _, _ => None end | _, _ => Some [] end) ts a) else None
  | CStruct ms, JObject o => if (length o =? length ms)%nat then
      option_map VStruct ((fix go ms o := match ms with
        | [] => Some []
        | (k, t) :: r => match mremove k o with
                         | Some (j, o') => match parse_value t j, go r o' with Some v, Some vs => Some ((k, v) :: vs) | _, _ => None end
                         | None => None
                         end
        end) ms o) else None
  | _, _ => None
  end.
(** lib.rs:362-383 parse_strict_json *)
Definition parse_values (ts : list cty) (vs : list json) : option (list value_) :=
  if (length vs =? length ts)%nat then opt_list (map (fun tj => parse_value (fst tj) (snd tj)) (combine ts vs)) else None.
(** member names are distinct, in every struct of the type (checked by the semantic analysis) *)
Fixpoint distinct_members (t : cty) : Prop :=
  match t with
  | CArray ty _ => distinct_members ty
  | CTuple ts => (fix go l := match l with [] => True | t :: r => distinct_members t /\ go r end) ts
  | CStruct ms => NoDup (map fst ms) /\ (fix go l := match l with [] => True | (_, t) :: r => distinct_members t /\ go r end) ms
  | _ => True
  end.
End Json.

(** ** Induction on types *)
Section CtyInd.
Variable P : cty -> Prop.
Hypothesis HF : P CField.
Hypothesis HB : P CBool.
Hypothesis HU : forall w, P (CUint w).
Hypothesis HA : forall ty n, P ty -> P (CArray ty n).
Hypothesis HT : forall ts, Forall P ts -> P (CTuple ts).
Hypothesis HS : forall ms, Forall (fun m => P (snd m)) ms -> P (CStruct ms).
Hypothesis HI : P CInt.
Fixpoint cty_ind' (t : cty) : P t :=
  match t with
  | CField => HF | CBool => HB | CUint w => HU w | CArray ty n => HA ty n (cty_ind' ty)
  | CTuple ts => HT ts ((fix go l := match l return Forall P l with [] => Forall_nil _ | t :: r => Forall_cons _ (cty_ind' t) (go r) end) ts)
  | CStruct ms => HS ms ((fix go l := match l return Forall (fun m => P (snd m)) l with [] => Forall_nil _ | m :: r => Forall_cons m (cty_ind' (snd m)) (go r) end) ms)
  | CInt => HI
  end.
End CtyInd.

Section AbiFacts.
Context {PF : PrimeField}.
Definition sum_count (ts : list cty) : nat := fold_right (fun t s => (prim_count t + s)%nat) O ts.
Lemma count_tuple : forall ts, prim_count (CTuple ts) = sum_count ts.
Proof. induction ts as [|t ts IH]; [reflexivity|]. cbn in *. rewrite IH. reflexivity. Qed.
Lemma count_struct : forall ms, prim_count (CStruct ms) = sum_count (map snd ms).
Proof. induction ms as [|[k t] ms IH]; [reflexivity|]. cbn in *. rewrite IH. reflexivity. Qed.
Lemma type_array : forall l ty n, has_type (VArray l) (CArray ty n) <-> length l = n /\ Forall (fun v => has_type v ty) l.
Proof.
  intros l ty n. cbn. apply and_iff_compat_l. induction l as [|v l IH]; [split; [constructor|trivial]|]. rewrite IH. split; [intros [A B]; constructor; assumption|]. intros H. inversion H; subst. split; assumption.
Qed.
Lemma type_tuple : forall l ts, has_type (VTuple l) (CTuple ts) <-> Forall2 has_type l ts.
Proof.
  intros l ts. cbn. revert ts. induction l as [|v l IH]; intros [|t ts]; [split; [constructor|trivial]|split; [intros []|intros H; inversion H]|split; [intros []|intros H; inversion H]|].
  rewrite IH. split; [intros [A B]; constructor; assumption|]. intros H. inversion H; subst. split; assumption.
Qed.
Lemma type_struct : forall l ms, has_type (VStruct l) (CStruct ms) <-> Forall2 (fun kv kt => fst kv = fst kt /\ has_type (snd kv) (snd kt)) l ms.
Proof.
  intros l ms. cbn. revert ms. induction l as [|[k v] l IH]; intros [|[k' t] ms]; [split; [constructor|trivial]|split; [intros []|intros H; inversion H]|split; [intros []|intros H; inversion H]|].
  rewrite IH. split; [intros [A [B C]]; constructor; [split|]; assumption|]. intros H. inversion H as [|? ? ? ? [A B] C]; subst. cbn in A, B. split; [exact A|split; assumption].
Qed.
Lemma no_empty_tuple : forall ts, no_empty (CTuple ts) <-> Forall no_empty ts.
Proof. intros ts. cbn. induction ts as [|t ts IH]; [split; [constructor|trivial]|]. rewrite IH. split; [intros [A B]; constructor; assumption|]. intros H. inversion H; subst. split; assumption. Qed.
Lemma no_empty_struct : forall ms, no_empty (CStruct ms) <-> Forall (fun m => no_empty (snd m)) ms.
Proof. intros ms. cbn. induction ms as [|[k t] ms IH]; [split; [constructor|trivial]|]. rewrite IH. split; [intros [A B]; constructor; assumption|]. intros H. inversion H; subst. split; assumption. Qed.
Lemma decode_tuple : forall ts raw, decode (CTuple ts) raw = option_map VTuple (decode_values ts raw).
Proof. reflexivity. Qed.
Fixpoint decode_members (ms : list (string * cty)) (raw : list F) : option (list (string * value_)) :=
  match ms with
  | [] => Some []
  | (k, t) :: r => if (prim_count t <=? length raw)%nat then
      match decode t (firstn (prim_count t) raw), decode_members r (skipn (prim_count t) raw) with Some v, Some vs => Some ((k, v) :: vs) | _, _ => None end else None
  end.
Lemma decode_struct : forall ms raw, decode (CStruct ms) raw = option_map VStruct (decode_members ms raw).
Proof. reflexivity. Qed.
(** ** The number of field elements *)
Lemma encode_length : forall t v, has_type v t -> length (encode v) = prim_count t.
Proof.
  induction t as [| |w|ty n IH|ts IH|ms IH|] using cty_ind'; intros v H; destruct v; try (cbn in H; contradiction); try reflexivity.
  - apply type_array in H as [L H]. cbn [encode prim_count]. subst n. induction H as [|v l Hv Hl IHl]; [reflexivity|]. cbn [flat_map length]. rewrite app_length, (IH v Hv), IHl. reflexivity.
  - apply type_tuple in H. rewrite count_tuple. cbn [encode]. revert IH. induction H as [|v t l ts Hv Hl IHl]; intros IH; [reflexivity|]. inversion IH as [|? ? I1 I2]; subst. cbn [flat_map sum_count fold_right]. rewrite app_length, (I1 v Hv), (IHl I2). reflexivity.
  - apply type_struct in H. rewrite count_struct. cbn [encode]. revert IH. induction H as [|[k v] [k' t] l ms [_ Hv] Hl IHl]; intros IH; [reflexivity|]. inversion IH as [|? ? I1 I2]; subst. cbn [snd] in *. cbn [flat_map map sum_count fold_right snd]. rewrite app_length, (I1 v Hv), (IHl I2). reflexivity.
Qed.
Lemma firstn_app_exact : forall (a b : list F) n, length a = n -> firstn n (a ++ b) = a.
Proof. intros a b n <-. rewrite firstn_app, Nat.sub_diag, firstn_all. cbn. apply app_nil_r. Qed.
Lemma skipn_app_exact : forall (a b : list F) n, length a = n -> skipn n (a ++ b) = b.
Proof. intros a b n <-. rewrite skipn_app, Nat.sub_diag, skipn_all. reflexivity. Qed.
Lemma opt_list_map_some : forall A B (f : A -> option B) l m, Forall2 (fun a b => f a = Some b) l m -> opt_list (map f l) = Some m.
Proof. intros A B f l m H. induction H as [|a b l m E _ IH]; [reflexivity|]. cbn [map opt_list]. rewrite E, IH. reflexivity. Qed.
Lemma opt_list_map_inv : forall A B (f : A -> option B) l m, opt_list (map f l) = Some m -> Forall2 (fun a b => f a = Some b) l m.
Proof.
  induction l as [|a l IH]; intros m H; cbn [map opt_list] in H; [injection H as <-; constructor|]. destruct (f a) as [b|] eqn:E; [|discriminate H]. destruct (opt_list (map f l)) as [r|] eqn:E2; [|discriminate H]. injection H as <-. constructor; [exact E|apply IH; reflexivity].
Qed.
Lemma chunks_blocks : forall k (ls : list (list F)) fuel, k <> O -> Forall (fun l => length l = k) ls -> (length (concat ls) <= fuel)%nat -> chunks_aux fuel k (concat ls) = ls.
Proof.
  intros k ls. induction ls as [|l ls IH]; intros fuel K H L; [destruct fuel; reflexivity|]. inversion H as [|? ? H1 H2]; subst. cbn [concat] in *. rewrite app_length in L.
  destruct fuel as [|fuel]; [lia|]. cbn [chunks_aux]. destruct (l ++ concat ls) as [|x r] eqn:E; [apply app_eq_nil in E as [-> _]; cbn in K; contradiction|]. rewrite <- E.
  rewrite firstn_app_exact, skipn_app_exact by reflexivity. f_equal. apply IH; auto. lia.
Qed.
Lemma chunks_concat : forall fuel k raw, k <> O -> (length raw <= fuel)%nat -> concat (chunks_aux fuel k raw) = raw.
Proof.
  induction fuel as [|fuel IH]; intros k raw K L; [destruct raw; [reflexivity|cbn in L; lia]|]. cbn [chunks_aux]. destruct raw as [|x raw]; [reflexivity|]. cbn [concat]. rewrite IH; [apply firstn_skipn|exact K|].
  rewrite skipn_length. cbn [length] in *. lia.
Qed.
Lemma chunks_sizes : forall n fuel k raw, k <> O -> length raw = (n * k)%nat -> (length raw <= fuel)%nat -> length (chunks_aux fuel k raw) = n /\ Forall (fun l => length l = k) (chunks_aux fuel k raw).
Proof.
  induction n as [|n IH]; intros fuel k raw K E L; [destruct raw; [|discriminate E]; destruct fuel; split; constructor|]. destruct raw as [|x raw]; [cbn in E; lia|]. destruct fuel as [|fuel]; [cbn in L; lia|]. cbn [chunks_aux].
  destruct (IH fuel k (skipn k (x :: raw)) K) as [A B]; [rewrite skipn_length, E; cbn; lia|rewrite skipn_length; cbn [length] in *; lia|]. split; [cbn [length]; f_equal; exact A|]. constructor; [rewrite firstn_length, E; cbn; lia|exact B].
Qed.
(** all integers of the type fit in the field *)
Definition wide : Prop := 2 ^ 64 <= pp.
Lemma width_fits : forall w n, wide -> 0 <= n < 2 ^ bits_of w -> fval (of_Z n) = n.
Proof. intros w n W H. apply fval_of_Z_small. unfold wide in W. assert (2 ^ bits_of w <= 2 ^ 64) by (apply Z.pow_le_mono_r; destruct w; cbn; lia). lia. Qed.
Lemma decode_encode : wide -> forall t v, has_type v t -> no_empty t -> decode t (encode v) = Some v.
Proof.
  intros W. induction t as [| |w|ty n IH|ts IH|ms IH|] using cty_ind'; intros v H Ne; destruct v; try (cbn in H; contradiction).
  - reflexivity.
  - cbn [encode decode pop rev app]. destruct b.
    + replace (Feqb (of_Z 1) f0) with false; [replace (Feqb (of_Z 1) f1) with true; [reflexivity|symmetry; apply Feqb_refl]|]. symmetry. unfold Feqb. change (of_Z 1) with f1. rewrite fval_f1, fval_f0. reflexivity.
    + change (of_Z 0) with f0. rewrite Feqb_refl. reflexivity.
  - cbn in H. destruct H as [<- H]. cbn [encode decode pop rev app]. rewrite (width_fits w0 n W H). destruct (Z.ltb_spec n (2 ^ bits_of w0)); [reflexivity|lia].
  - apply type_array in H as [L H]. destruct Ne as [Nz Ne]. cbn [encode decode]. unfold chunks. destruct (prim_count ty) as [|k] eqn:K; [contradiction|]. 
    rewrite flat_map_concat_map, chunks_blocks; [|discriminate| |lia].
    + rewrite map_map. erewrite opt_list_map_some; [reflexivity|]. clear L. induction H as [|v l Hv Hl IHl]; constructor; [apply IH; assumption|exact IHl].
    + rewrite Forall_map. eapply Forall_impl; [|exact H]. cbn. intros v Hv. rewrite <- K. apply encode_length. exact Hv.
  - apply type_tuple in H. apply no_empty_tuple in Ne. rewrite decode_tuple. cbn [encode]. assert (E : decode_values ts (flat_map encode l) = Some l); [|rewrite E; reflexivity].
    revert IH Ne. induction H as [|v t l ts Hv Hl IHl]; intros IH Ne; [reflexivity|]. inversion IH as [|? ? I1 I2]; subst. inversion Ne as [|? ? N1 N2]; subst. cbn [flat_map decode_values]. pose proof (encode_length _ _ Hv) as L. 
    rewrite app_length, L. destruct (Nat.leb_spec (prim_count t) (prim_count t + length (flat_map encode l))); [|lia]. rewrite firstn_app_exact, skipn_app_exact by exact L. rewrite (I1 v Hv N1), (IHl I2 N2). reflexivity.
  - apply type_struct in H. apply no_empty_struct in Ne. rewrite decode_struct. cbn [encode]. assert (E : decode_members ms (flat_map (fun kv => encode (snd kv)) l) = Some l); [|rewrite E; reflexivity].
    revert IH Ne. induction H as [|[k v] [k' t] l ms [Hk Hv] Hl IHl]; intros IH Ne; [reflexivity|]. inversion IH as [|? ? I1 I2]; subst. inversion Ne as [|? ? N1 N2]; subst. cbn [fst snd] in *. subst k'. cbn [flat_map decode_members snd]. pose proof (encode_length _ _ Hv) as L. 
    rewrite app_length, L. match goal with |- context [if (?a <=? ?b)%nat then _ else _] => destruct (Nat.leb_spec a b); [|lia] end. rewrite firstn_app_exact, skipn_app_exact by exact L. rewrite (I1 v Hv N1), (IHl I2 N2). reflexivity.
Qed.
(** and back: whatever decodes, decodes to a value of the type that encodes to the same elements *)
Lemma pop_one : forall raw x, length raw = 1%nat -> pop raw = Some x -> raw = [x].
Proof. intros [|y [|z r]] x L H; try discriminate L. cbn in H. injection H as ->. reflexivity. Qed.
Lemma encode_decode : forall t raw v, length raw = prim_count t -> decode t raw = Some v -> has_type v t /\ encode v = raw.
Proof.
  induction t as [| |w|ty n IH|ts IH|ms IH|] using cty_ind'; intros raw v L H.
  - cbn [decode] in H. destruct (pop raw) as [x|] eqn:P; [|discriminate H]. injection H as <-. rewrite (pop_one _ _ L P). split; [exact I|reflexivity].
  - cbn [decode] in H. destruct (pop raw) as [x|] eqn:P; [|discriminate H]. rewrite (pop_one _ _ L P). destruct (Feqb x f0) eqn:E0; [|destruct (Feqb x f1) eqn:E1; [|discriminate H]]; injection H as <-; (split; [exact I|]); cbn [encode]; [apply Feqb_eq in E0|apply Feqb_eq in E1]; subst x; reflexivity.
  - cbn [decode] in H. destruct (pop raw) as [x|] eqn:P; [|discriminate H]. rewrite (pop_one _ _ L P). destruct (Z.ltb_spec (fval x) (2 ^ bits_of w)); [|discriminate H]. injection H as <-. pose proof (fval_range x). split; [cbn; split; [reflexivity|lia]|]. cbn [encode]. rewrite of_Z_fval. reflexivity.
  - cbn [decode] in H. unfold chunks in H. destruct (prim_count ty) as [|k] eqn:K; [discriminate H|]. destruct (opt_list _) as [l|] eqn:O in H; [|discriminate H]. injection H as <-. apply opt_list_map_inv in O.
    cbn [prim_count] in L. rewrite K in L. destruct (chunks_sizes n (length raw) (Datatypes.S k) raw ltac:(discriminate) L (le_n _)) as [C1 C2]. pose proof (chunks_concat (length raw) (Datatypes.S k) raw ltac:(discriminate) (le_n _)) as C3.
    remember (chunks_aux (length raw) (Datatypes.S k) raw) as cs eqn:Ec. clear Ec.
    assert (G : Forall (fun v => has_type v ty) l /\ flat_map encode l = concat cs /\ length l = length cs).
    { clear C1 C3. induction O as [|c v cs l Hc Hl IHl]; [split; [constructor|split; reflexivity]|]. inversion C2 as [|? ? D1 D2]; subst. destruct (IHl D2) as [A [B C]]. destruct (IH c v) as [T E]; [exact D1|exact Hc|]. split; [constructor; assumption|]. cbn [flat_map concat length]. rewrite E, B, C. split; reflexivity. }
    destruct G as [A [B C]]. split; [apply type_array; split; [congruence|exact A]|]. cbn [encode]. rewrite B. exact C3.
  - rewrite decode_tuple in H. destruct (decode_values ts raw) as [l|] eqn:D; [|discriminate H]. injection H as <-. rewrite count_tuple in L.
    assert (G : Forall2 has_type l ts /\ flat_map encode l = raw); [|destruct G as [A B]; split; [apply type_tuple; exact A|exact B]].
    revert raw l L D. induction IH as [|t ts I1 I2 IHt]; intros raw l L D; cbn [decode_values sum_count fold_right] in *.
    + injection D as <-. destruct raw; [|discriminate L]. split; [constructor|reflexivity].
    + destruct (Nat.leb_spec (prim_count t) (length raw)); [|discriminate D]. destruct (decode t (firstn (prim_count t) raw)) as [v|] eqn:D1; [|discriminate D]. destruct (decode_values ts (skipn (prim_count t) raw)) as [vs|] eqn:D2; [|discriminate D]. injection D as <-.
      destruct (I1 (firstn (prim_count t) raw) v) as [T E]; [rewrite firstn_length; lia|exact D1|]. destruct (IHt (skipn (prim_count t) raw) vs) as [T2 E2]; [rewrite skipn_length; unfold sum_count; lia|exact D2|]. split; [constructor; assumption|]. cbn [flat_map]. rewrite E, E2. apply firstn_skipn.
  - rewrite decode_struct in H. destruct (decode_members ms raw) as [l|] eqn:D; [|discriminate H]. injection H as <-. rewrite count_struct in L.
    assert (G : Forall2 (fun kv kt => fst kv = fst kt /\ has_type (snd kv) (snd kt)) l ms /\ flat_map (fun kv => encode (snd kv)) l = raw); [|destruct G as [A B]; split; [apply type_struct; exact A|exact B]].
    revert raw l L D. induction IH as [|[k t] ms I1 I2 IHt]; intros raw l L D; cbn [decode_members map sum_count fold_right snd] in *.
    + injection D as <-. destruct raw; [|discriminate L]. split; [constructor|reflexivity].
    + destruct (Nat.leb_spec (prim_count t) (length raw)); [|discriminate D]. destruct (decode t (firstn (prim_count t) raw)) as [v|] eqn:D1; [|discriminate D]. destruct (decode_members ms (skipn (prim_count t) raw)) as [vs|] eqn:D2; [|discriminate D]. injection D as <-.
      destruct (I1 (firstn (prim_count t) raw) v) as [T E]; [rewrite firstn_length; lia|exact D1|]. destruct (IHt (skipn (prim_count t) raw) vs) as [T2 E2]; [rewrite skipn_length; unfold sum_count; lia|exact D2|]. split; [constructor; [split; [reflexivity|exact T]|exact T2]|]. cbn [flat_map snd]. rewrite E, E2. apply firstn_skipn.
  - discriminate H.
Qed.
End AbiFacts.
