(** The grammar of JSON (RFC 8259) and what texts stand for, independent of how they are read.  Values
    of type [json] tell apart what matters for a library: [JOther] stands for numbers which are not
    natural ones, for strings which are not Unicode texts (unpaired surrogates) and for objects with
    such keys. *)
From Verif Require Import Base Library Serde.
Local Open Scope N_scope.
Local Open Scope list_scope.

(** Values without [JOther] in them: those which stand for exactly one thing, and can be written. *)
Fixpoint plain (j : json) : bool :=
  match j with
  | JArr l => forallb plain l
  | JObj fs => forallb (fun f => plain (snd f)) fs
  | JOther => false
  | _ => true
  end.

Definition space (c : N) : Prop := c = 32 \/ c = 9 \/ c = 10 \/ c = 13.
Definition spaces (w : list N) : Prop := Forall space w.

(** ** Strings *)

Inductive hex_value : N -> N -> Prop :=
| hex_decimal c : 48 <= c <= 57 -> hex_value c (c - 48)     (* 0 to 9 *)
| hex_lower c : 97 <= c <= 102 -> hex_value c (c - 87)      (* a to f *)
| hex_upper c : 65 <= c <= 70 -> hex_value c (c - 55).      (* A to F *)

(** Four hexadecimal digits *)
Definition hex_number (h : list N) (n : N) : Prop :=
  exists a b c d va vb vc vd, h = [a; b; c; d] /\
    hex_value a va /\ hex_value b vb /\ hex_value c vc /\ hex_value d vd /\
    n = va * 4096 + vb * 256 + vc * 16 + vd.

Definition leading (n : N) : Prop := 55296 <= n <= 56319.    (* D800 to DBFF *)
Definition trailing (n : N) : Prop := 56320 <= n <= 57343.   (* DC00 to DFFF *)

(** The letter after a backslash, and what it stands for: quote, backslash, slash, b, f, n, r, t *)
Definition escapes : list (N * N) :=
  [(34, 34); (92, 92); (47, 47); (98, 8); (102, 12); (110, 10); (114, 13); (116, 9)].

(** What may stand between quotes *)
Inductive literal : list N -> Prop :=
| lit_nil : literal []
| lit_char c s : 32 <= c -> c <> 34 -> c <> 92 -> literal s -> literal (c :: s)
| lit_escape e c s : In (e, c) escapes -> literal s -> literal (92 :: e :: s)
| lit_hex h n s : hex_number h n -> literal s -> literal (92 :: 117 :: h ++ s).

(** The literal [s] spells the text [t] *)
Inductive spells : list N -> list N -> Prop :=
| sp_nil : spells [] []
| sp_char c s t : 32 <= c -> c <> 34 -> c <> 92 -> spells s t -> spells (c :: s) (c :: t)
| sp_escape e c s t : In (e, c) escapes -> spells s t -> spells (92 :: e :: s) (c :: t)
| sp_hex h n s t : hex_number h n -> ~ leading n -> ~ trailing n -> spells s t ->
    spells (92 :: 117 :: h ++ s) (n :: t)
| sp_pair h n h' n' s t : hex_number h n -> leading n -> hex_number h' n' -> trailing n' -> spells s t ->
    spells (92 :: 117 :: h ++ 92 :: 117 :: h' ++ s) (65536 + (n - 55296) * 1024 + (n' - 56320) :: t).

(** ** Numbers *)

Definition digit (c : N) : Prop := 48 <= c <= 57.
Definition digits (ds : list N) : Prop := ds <> [] /\ Forall digit ds.

(** Without needless zeros *)
Definition integer (ds : list N) : Prop := digits ds /\ forall t, ds = 48 :: t -> t = [].
Definition fraction (f : list N) : Prop := exists ds, digits ds /\ f = 46 :: ds.
Definition exponent (e : list N) : Prop :=
  exists x sign ds, (x = 101 \/ x = 69) /\ (sign = [] \/ sign = [43] \/ sign = [45]) /\ digits ds /\
    e = x :: sign ++ ds.

(** The value of decimal digits *)
Inductive decimal : list N -> N -> Prop :=
| dec_none : decimal [] 0
| dec_digit ds n d : decimal ds n -> digit d -> decimal (ds ++ [d]) (10 * n + (d - 48)).

(** ** Values *)

(** The key of a field: a text, or [None] for a literal which spells none *)
Definition key (k : option (list N)) (s : list N) : Prop :=
  literal s /\ match k with Some t => spells s t | None => forall t, ~ spells s t end.

Inductive json_text : json -> list N -> Prop :=
| jt_null : json_text JNull (s2l "null")
| jt_true : json_text (JBool true) (s2l "true")
| jt_false : json_text (JBool false) (s2l "false")
| jt_natural ds n : integer ds -> decimal ds n -> json_text (JNum n) ds
| jt_number sign i f e : sign = [] \/ sign = [45] -> integer i -> f = [] \/ fraction f ->
    e = [] \/ exponent e -> sign ++ f ++ e <> [] -> json_text JOther (sign ++ i ++ f ++ e)
| jt_string s t : spells s t -> json_text (JStr t) (34 :: s ++ [34])
| jt_no_text s : key None s -> json_text JOther (34 :: s ++ [34])
| jt_empty_array w : spaces w -> json_text (JArr []) (91 :: w ++ [93])
| jt_array l s : json_elems l s -> json_text (JArr l) (91 :: s ++ [93])
| jt_empty_object w : spaces w -> json_text (JObj []) (123 :: w ++ [125])
| jt_object fields s : json_fields (map (fun '(k, v) => (Some k, v)) fields) s ->
    json_text (JObj fields) (123 :: s ++ [125])
| jt_bad_object fields s j : json_fields fields s -> In (None, j) fields ->
    json_text JOther (123 :: s ++ [125])
(** One or more values with commas between them *)
with json_elems : list json -> list N -> Prop :=
| je_one w1 j s w2 : spaces w1 -> json_text j s -> spaces w2 -> json_elems [j] (w1 ++ s ++ w2)
| je_more w1 j s w2 l r : spaces w1 -> json_text j s -> spaces w2 -> json_elems l r ->
    json_elems (j :: l) (w1 ++ s ++ w2 ++ 44 :: r)
(** One or more pairs of a key and a value *)
with json_fields : list (option (list N) * json) -> list N -> Prop :=
| jf_one w1 k sk w2 w3 j s w4 : spaces w1 -> key k sk -> spaces w2 -> spaces w3 -> json_text j s -> spaces w4 ->
    json_fields [(k, j)] (w1 ++ 34 :: sk ++ 34 :: w2 ++ 58 :: w3 ++ s ++ w4)
| jf_more w1 k sk w2 w3 j s w4 l r : spaces w1 -> key k sk -> spaces w2 -> spaces w3 -> json_text j s -> spaces w4 ->
    json_fields l r -> json_fields ((k, j) :: l) (w1 ++ 34 :: sk ++ 34 :: w2 ++ 58 :: w3 ++ s ++ w4 ++ 44 :: r).

(** A whole text *)
Definition json_document (j : json) (t : list N) : Prop :=
  exists w1 s w2, spaces w1 /\ json_text j s /\ spaces w2 /\ t = w1 ++ s ++ w2.

(** ** Values with the fields of a library *)

Definition absent (name : list N) (fields : list (list N * json)) : Prop := ~ In name (map fst fields).
(** The field occurs once, with this value. *)
Definition once (name : list N) (fields : list (list N * json)) (v : json) : Prop :=
  exists a b, fields = a ++ (name, v) :: b /\ absent name (a ++ b).

(** Fields with other names do not matter, nor does the order.  An array of all the fields in their
    order is the same as an object. *)
Inductive title_form : option (list N) -> json -> Prop :=
| tf_null : title_form None JNull
| tf_text t : title_form (Some t) (JStr t).

Inductive method_form : compact_method_serde -> json -> Prop :=
| mf_object title name notation fields :
    (absent (s2l "t") fields /\ title = None \/ exists v, once (s2l "t") fields v /\ title_form title v) ->
    once (s2l "n") fields (JStr name) -> once (s2l "p") fields (JStr notation) ->
    method_form (CompactMethodSerde title name notation) (JObj fields)
| mf_array title name notation v : title_form title v ->
    method_form (CompactMethodSerde title name notation) (JArr [v; JStr name; JStr notation]).

Definition flag_form (name : list N) (b : bool) (fields : list (list N * json)) : Prop :=
  absent name fields /\ b = false \/ once name fields (JBool b).

Inductive group_form : method_group -> json -> Prop :=
| gf_object stage jump little differential class methods js fields :
    once (s2l "s") fields (JNum (N.of_nat stage)) -> N.of_nat stage < 2 ^ 64 ->
    flag_form (s2l "j") jump fields -> flag_form (s2l "l") little fields -> flag_form (s2l "d") differential fields ->
    once (s2l "c") fields (JNum (N.of_nat class)) -> N.of_nat class < 2 ^ 8 ->
    once (s2l "m") fields (JArr js) -> Forall2 method_form methods js ->
    group_form (MethodGroup stage jump little differential class methods) (JObj fields)
| gf_array stage jump little differential class methods js :
    N.of_nat stage < 2 ^ 64 -> N.of_nat class < 2 ^ 8 -> Forall2 method_form methods js ->
    group_form (MethodGroup stage jump little differential class methods)
      (JArr [JNum (N.of_nat stage); JBool jump; JBool little; JBool differential; JNum (N.of_nat class); JArr js]).

Inductive lib_form : method_lib_serde -> json -> Prop :=
| lf_object groups js fields : once (s2l "groups") fields (JArr js) -> Forall2 group_form groups js ->
    lib_form groups (JObj fields)
| lf_array groups js : Forall2 group_form groups js -> lib_form groups (JArr [JArr js]).
