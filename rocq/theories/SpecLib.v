(** Specification vocabulary for method libraries. *)
From Verif Require Import Base Bell Stage Spec PlaceNot Class Method Library Serde.
Local Open Scope list_scope.

(** [w] is what follows the last space of [t] (all of [t] if it has no space). *)
Definition last_word (t w : list N) : Prop :=
  ~ In 32%N w /\ (t = w \/ exists before, t = before ++ 32%N :: w).

(** The library holds [cm] under stage [s] and key [k]. *)
Definition entry (lib : method_lib) (s : nat) (k : list N) (cm : compact_method) : Prop :=
  exists methods, In (s, methods) lib /\ In (k, cm) methods.

(** As in any hash map, no two entries have the same key. *)
Definition keys_differ (lib : method_lib) : Prop :=
  NoDup (map fst lib) /\ forall s methods, In (s, methods) lib -> NoDup (map fst methods).

(** The method which a search for [title] should find: the stage is the one named by the last word,
    and the key is the whole title in lower case. *)
Definition found (to_lowercase : list N -> list N) (lib : method_lib) (title : list N)
    (s : nat) (cm : compact_method) : Prop :=
  exists w, last_word (to_lowercase title) w /\ stage_from_lower_case_name w = Some s /\
    entry lib s (to_lowercase title) cm.

(** The items which [Shortlist] promises: the [n] greatest ones (all, if there are fewer), in
    ascending order.  Here greater means closer, and the order of equally close ones is open. *)
Definition keeps_closest (n : nat) (items kept : list (list N * nat)) : Prop :=
  (exists dropped, Permutation items (kept ++ dropped) /\
     forall x y, In x kept -> In y dropped -> snd x <= snd y) /\
  length kept = Nat.min n (length items) /\
  forall i j x y, i < j -> nth_error kept i = Some x -> nth_error kept j = Some y -> snd y <= snd x.

(** ** The compact form *)

(** Every entry is stored under its title in lower case, and its stage has a name. *)
Definition proper (to_lowercase : list N -> list N) (lib : method_lib) : Prop :=
  forall s k cm, entry lib s k cm -> k = to_lowercase (cm_title cm) /\ exists n, stage_name s = Some n.

(** The methods of a compact form, in order, each with its group. *)
Definition methods_of (l : method_lib_serde) : list (method_group * compact_method_serde) :=
  flat_map (fun g => map (pair g) (g_methods g)) l.

(** What one of them stands for. *)
Definition stands_for (to_lowercase : list N -> list N) (gc : method_group * compact_method_serde)
    (s : nat) (k : list N) (cm : compact_method) : Prop :=
  let (g, cs) := gc in
  s = g_stage g /\
  cm_name cm = cs_name cs /\ cm_place_notation cm = cs_place_notation cs /\
  is_jump (cm_full_class cm) = g_is_jump g /\ is_little (cm_full_class cm) = g_is_little g /\
  is_differential (cm_full_class cm) = g_is_differential g /\
  to_class_id (fc_class (cm_full_class cm)) = g_class_id g /\
  (cs_title cs = Some (cm_title cm) \/
   cs_title cs = None /\ generate_title (cm_name cm) (cm_full_class cm) s = Ret (cm_title cm)) /\
  k = to_lowercase (cm_title cm).

(** ** Values given to a deserialiser *)

(** The number which an integer value stands for, whatever its width. *)
Definition number_of (v : visited) : option Z :=
  match v with
  | VI8 z | VI16 z | VI32 z | VI64 z => Some z
  | VU8 n | VU16 n | VU32 n | VU64 n => Some (Z.of_N n)
  | _ => None
  end.

(** The text which a character or string value stands for. *)
Definition text_of (v : visited) : option (list N) :=
  match v with VChar c => Some [c] | VStr t => Some t | _ => None end.

(** The stage is given by its number of bells, or by its name in any case. *)
Definition gives_stage (to_lowercase : list N -> list N) (v : visited) (s : nat) : Prop :=
  0 < s /\
  (number_of v = Some (Z.of_nat s) \/
   exists t n, text_of v = Some t /\ stage_name s = Some n /\ to_lowercase t = map ascii_lower n).

(** The bell is given by its number, counted from 1, or by its one-character name. *)
Definition gives_bell (v : visited) (b : nat) : Prop :=
  number_of v = Some (Z.of_nat b + 1)%Z \/
  exists c, text_of v = Some [c] /\ bell_to_char b = Some c.
