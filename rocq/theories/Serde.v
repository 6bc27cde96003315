(** Model of the serde implementations for stages (/repo/src/stage.rs 350-462) and bells
    (/repo/src/bell.rs 286-405), and of the derived ones of the compact form of a library
    (/repo/src/method_lib/lib_serde.rs 19-165). *)
From Verif Require Import Base Bell Stage Class Library.
Local Open Scope list_scope.

(** ** Values handed to a visitor.  The integers are those of the width in the name. *)
(* the methods of the visitors, stage.rs 368-441 and bell.rs 289-372 *)
Inductive visited :=
| VI8 (v : Z) | VI16 (v : Z) | VI32 (v : Z) | VI64 (v : Z)
| VU8 (v : N) | VU16 (v : N) | VU32 (v : N) | VU64 (v : N)
| VChar (c : N)
| VStr (t : str)
| VOther.  (** bool, float, bytes, sequence, map, ... *)

(** Errors carry a message, which is not modelled. *)
(* stage.rs 439, 450 and bell.rs 349, 356, 364, 370, 382; the other kind is serde's default for a visitor without the method *)
Inductive serde_error := InvalidValue | InvalidType.

(* stage.rs 446-452 *)
Definition try_parse_stage (val : Z) : exec (result stage serde_error) :=
  if (0 <=? val)%Z then s <- stage_new (Z.to_nat val);; Ret (Ok s) else Ret (Err InvalidValue).

Section Lower.
Context (to_lowercase : str -> str).

(* stage.rs 433-440 *)
Definition stage_visit_str (v : str) : exec (result stage serde_error) :=
  Ret (match stage_from_lower_case_name (to_lowercase v) with
       | Some s => Ok s
       | None => Err InvalidValue
       end).

(* stage.rs 368-441; a [char] is passed on by serde as a string, all other types are refused *)
Definition stage_visit (v : visited) : exec (result stage serde_error) :=
  match v with
  | VI8 v | VI16 v | VI32 v | VI64 v => try_parse_stage v
  | VU8 v | VU16 v | VU32 v | VU64 v => s <- stage_new (N.to_nat v);; Ret (Ok s)
  | VChar c => stage_visit_str [c]
  | VStr t => stage_visit_str t
  | VOther => Ret (Err InvalidType)
  end.
End Lower.

(* stage.rs 352-359: what a deserialiser hands back for it is the same [u64] *)
Definition stage_serialize (s : stage) : visited := VU64 (N.of_nat s).

(* bell.rs 377-384 *)
Definition try_parse_bell (val : Z) : exec (result bell serde_error) :=
  if (0 <? val)%Z then b <- unwrap (bell_from_number (Z.to_nat val));; Ret (Ok b) else Ret (Err InvalidValue).

(* bell.rs 349, 356, 370 *)
Definition ok_or_invalid {A} (o : option A) : result A serde_error :=
  match o with Some a => Ok a | None => Err InvalidValue end.

(* bell.rs 289-372; the unsigned integers up to 32 bits are cast to [i64] *)
Definition bell_visit (v : visited) : exec (result bell serde_error) :=
  match v with
  | VI8 v | VI16 v | VI32 v | VI64 v => try_parse_bell v
  | VU8 v | VU16 v | VU32 v => try_parse_bell (Z.of_N v)
  | VU64 v => Ret (ok_or_invalid (bell_from_number (N.to_nat v)))
  | VChar c => Ret (ok_or_invalid (bell_from_name c))
  | VStr t =>
      if negb (byte_len t =? 1) then Ret (Err InvalidValue)
      else Ret (ok_or_invalid (match t with [] => None | c :: _ => bell_from_name c end))
  | VOther => Ret (Err InvalidType)
  end.

(* bell.rs 397-405 *)
Definition bell_serialize (b : bell) : visited := VU64 (N.of_nat b).

(** ** JSON values; the step between these and JSON text is in [Json].  [JOther] is a value which can
    only be ignored: a number that is not a natural number, a text which is not Unicode, or an object
    with such a text for a key. *)
(* what serde_json hands to lib_serde.rs 19-160 *)
Inductive json :=
| JNull
| JBool (b : bool)
| JNum (n : N)
| JStr (t : str)
| JArr (l : list json)
| JObj (fields : list (str * json))
| JOther.

(** The [Serialize] and [Deserialize] implementations derived from the attributes.  A derived
    deserialiser ignores unknown fields and refuses repeated ones; it also accepts an array with all
    fields of the struct in their order. *)

(* derived, lib_serde.rs 19-160 *)
Definition field (name : str) (fields : list (str * json)) : option json :=
  option_map snd (find (fun f => str_eqb (fst f) name) fields).

(* derived, lib_serde.rs 19-160 *)
Definition repeated (name : str) (fields : list (str * json)) : bool :=
  1 <? length (filter (fun f => str_eqb (fst f) name) fields).

(* lib_serde.rs 151-160 *)
Definition compact_to_json (cs : compact_method_serde) : json :=
  JObj ((match cs_title cs with Some t => [(s2l "t", JStr t)] | None => [] end) ++
        [(s2l "n", JStr (cs_name cs)); (s2l "p", JStr (cs_place_notation cs))]).

(* lib_serde.rs 163-165: [is_false] decides which flags are left out *)
Definition flag_to_json (name : str) (b : bool) : list (str * json) :=
  if b then [(name, JBool b)] else [].

(* lib_serde.rs 130-148 *)
Definition group_to_json (g : method_group) : json :=
  JObj ([(s2l "s", JNum (N.of_nat (g_stage g)))] ++
        flag_to_json (s2l "j") (g_is_jump g) ++ flag_to_json (s2l "l") (g_is_little g) ++
        flag_to_json (s2l "d") (g_is_differential g) ++
        [(s2l "c", JNum (N.of_nat (g_class_id g))); (s2l "m", JArr (map compact_to_json (g_methods g)))]).

(* lib_serde.rs 19-23 *)
Definition lib_to_json (l : method_lib_serde) : json := JObj [(s2l "groups", JArr (map group_to_json l))].

(* derived, lib_serde.rs 19-160: [?] in a derived deserialiser *)
Definition obind {A B} (o : option A) (f : A -> option B) : option B :=
  match o with Some a => f a | None => None end.

(* derived for [String], lib_serde.rs 151-160 *)
Definition from_str_json (j : json) : option str := match j with JStr t => Some t | _ => None end.
(* derived for [bool], lib_serde.rs 137-142 *)
Definition from_bool_json (j : json) : option bool := match j with JBool b => Some b | _ => None end.
(** An unsigned integer type with the given bound *)
(* derived for [usize] and [u8], lib_serde.rs 133-144 *)
Definition from_uint_json (bound : N) (j : json) : option nat :=
  match j with JNum n => if (n <? bound)%N then Some (N.to_nat n) else None | _ => None end.

(* derived for [Vec], lib_serde.rs 22, 147 *)
Fixpoint mapO {A B} (f : A -> option B) (l : list A) : option (list B) :=
  match l with
  | [] => Some []
  | x :: t => obind (f x) (fun y => obind (mapO f t) (fun ys => Some (y :: ys)))
  end.

(* lib_serde.rs 151-160: [Option<String>] is [None] for a missing field or [null] *)
Definition compact_from_json (j : json) : option compact_method_serde :=
  match j with
  | JObj fields =>
      if existsb (fun n => repeated n fields) [s2l "t"; s2l "n"; s2l "p"] then None else
      obind (match field (s2l "t") fields with
             | None | Some JNull => Some None
             | Some j => option_map Some (from_str_json j)
             end) (fun title =>
      obind (obind (field (s2l "n") fields) from_str_json) (fun name =>
      obind (obind (field (s2l "p") fields) from_str_json) (fun pn =>
      Some (CompactMethodSerde title name pn))))
  | JArr [t; n; p] =>
      obind (match t with JNull => Some None | _ => option_map Some (from_str_json t) end) (fun title =>
      obind (from_str_json n) (fun name =>
      obind (from_str_json p) (fun pn =>
      Some (CompactMethodSerde title name pn))))
  | _ => None
  end.

(* lib_serde.rs 137-142: [serde(default)] *)
Definition flag_from_json (name : str) (fields : list (str * json)) : option bool :=
  match field name fields with
  | None => Some false
  | Some j => from_bool_json j
  end.

(* derived for [Vec], lib_serde.rs 22, 147 *)
Definition from_arr_json {A} (f : json -> option A) (j : json) : option (list A) :=
  match j with JArr l => mapO f l | _ => None end.

(* lib_serde.rs 130-148: [usize] has 64 bits, the class number is a [u8] *)
Definition group_from_json (j : json) : option method_group :=
  match j with
  | JObj fields =>
      if existsb (fun n => repeated n fields)
           [s2l "s"; s2l "j"; s2l "l"; s2l "d"; s2l "c"; s2l "m"] then None else
      obind (obind (field (s2l "s") fields) (from_uint_json (2 ^ 64))) (fun stage =>
      obind (flag_from_json (s2l "j") fields) (fun is_jump =>
      obind (flag_from_json (s2l "l") fields) (fun is_little =>
      obind (flag_from_json (s2l "d") fields) (fun is_differential =>
      obind (obind (field (s2l "c") fields) (from_uint_json (2 ^ 8))) (fun class_id =>
      obind (obind (field (s2l "m") fields) (from_arr_json compact_from_json)) (fun methods =>
      Some (MethodGroup stage is_jump is_little is_differential class_id methods)))))))
  | JArr [s; j; l; d; c; m] =>
      obind (from_uint_json (2 ^ 64) s) (fun stage =>
      obind (from_bool_json j) (fun is_jump =>
      obind (from_bool_json l) (fun is_little =>
      obind (from_bool_json d) (fun is_differential =>
      obind (from_uint_json (2 ^ 8) c) (fun class_id =>
      obind (from_arr_json compact_from_json m) (fun methods =>
      Some (MethodGroup stage is_jump is_little is_differential class_id methods)))))))
  | _ => None
  end.

(* lib_serde.rs 19-23 *)
Definition lib_from_json (j : json) : option method_lib_serde :=
  match j with
  | JObj fields =>
      if repeated (s2l "groups") fields then None else
      obind (field (s2l "groups") fields) (from_arr_json group_from_json)
  | JArr [groups] => from_arr_json group_from_json groups
  | _ => None
  end.
