(** Specification vocabulary for JSON texts and the cached library. *)
From Verif Require Import Base Library Serde SpecJson Json Utf8 Cache.
Local Open Scope string_scope.
Local Open Scope list_scope.

(** A Rust text: no char is a surrogate or above the last code point. *)
Definition rust_text (t : list N) : Prop :=
  Forall (fun c => c < 55296 \/ 57344 <= c < 1114112)%N t.

(** UTF-8 as in RFC 3629: the number of each char in bits of one to four bytes, in as few as possible. *)
Inductive utf8_char : N -> list N -> Prop :=
| utf8_1 c : (c < 128 -> utf8_char c [c])%N
| utf8_2 a b : (a < 32 -> b < 64 -> 128 <= a * 64 + b ->
    utf8_char (a * 64 + b) [192 + a; 128 + b])%N
| utf8_3 a b c : (a < 16 -> b < 64 -> c < 64 -> 2048 <= a * 4096 + b * 64 + c ->
    ~ 55296 <= a * 4096 + b * 64 + c < 57344 ->
    utf8_char (a * 4096 + b * 64 + c) [224 + a; 128 + b; 128 + c])%N
| utf8_4 a b c d : (a < 8 -> b < 64 -> c < 64 -> d < 64 ->
    65536 <= a * 262144 + b * 4096 + c * 64 + d < 1114112 ->
    utf8_char (a * 262144 + b * 4096 + c * 64 + d) [240 + a; 128 + b; 128 + c; 128 + d])%N.

Inductive utf8 : list N -> list N -> Prop :=
| utf8_nil : utf8 [] []
| utf8_cons c s t bytes : utf8_char c s -> utf8 t bytes -> utf8 (c :: t) (s ++ bytes).

(** In the history [es], the request of the call number [i] was answered with [t]. *)
Definition served (es : list event) (i : nat) (t : list N) : Prop :=
  (exists w, nth_error es i = Some (Call (Some t) w)) \/
  (exists k zeros, nth_error es i = Some (Killed (Some t) k zeros)).

(** A group which cannot be unpacked. *)
Definition bad_group (g : method_group) : Prop :=
  g_stage g = 0 \/ 8 < g_class_id g \/
  exists cs, In cs (g_methods g) /\ cs_title cs = None /\ Stage.stage_name (g_stage g) = None.

(** The text is JSON with the fields of a library. *)
Definition text_form (t : list N) (compact : method_lib_serde) : Prop :=
  exists j, json_document j t /\ lib_form compact j.

(** Two libraries which differ in the name and in the notation of their only method. *)
Definition old_text : list N := s2l "{""groups"":[{""s"":6,""c"":1,""m"":[{""n"":""A"",""p"":""-16""}]}]}".
Definition new_text : list N := s2l "{""groups"":[{""s"":6,""c"":1,""m"":[{""n"":""B"",""p"":""-12""}]}]}".
Definition mixed_text : list N := s2l "{""groups"":[{""s"":6,""c"":1,""m"":[{""n"":""B"",""p"":""-16""}]}]}".
