(** Vocabulary for texts which differ only in characters without a meaning. *)
From Verif Require Import Base Bell PlaceNot Spec SpecPn.
Local Open Scope string_scope.
Local Open Scope list_scope.

(** Two texts of place notation which should stand for the same changes: characters which are ignored may be put in or taken
    out, the characters for a cross may be exchanged for each other, and those between changes too; the latter may be left
    out before a cross, a comma, another one of them or the end, and after a cross, a comma, a plus, another one of them or
    the beginning. *)
Inductive alike : list N -> list N -> Prop :=
| alike_same t : alike t t
| alike_sym t t' : alike t t' -> alike t' t
| alike_trans t t' t'' : alike t t' -> alike t' t'' -> alike t t''
| alike_ignored a c b : is_ignored_char c -> c <> comma -> alike (a ++ c :: b) (a ++ b)
| alike_cross a c c' b : is_cross_char c -> is_cross_char c' -> alike (a ++ c :: b) (a ++ c' :: b)
| alike_delimiter a c c' b : is_delimiter_char c -> is_delimiter_char c' -> alike (a ++ c :: b) (a ++ c' :: b)
| alike_before a d b : is_delimiter_char d ->
    (b = [] \/ exists c b', b = c :: b' /\ (is_cross_char c \/ is_delimiter_char c \/ c = comma)) -> alike (a ++ d :: b) (a ++ b)
| alike_after a d b : is_delimiter_char d ->
    (a = [] \/ exists a' c, a = a' ++ [c] /\ (is_cross_char c \/ is_delimiter_char c \/ is_plus_char c \/ c = comma)) ->
    alike (a ++ d :: b) (a ++ b).

(** The same changes, or the same error apart from where in the text it is. *)
Definition same_but_for_position (r r' : result (list place_not) pn_block_error) : Prop :=
  match r, r' with
  | Ok l, Ok l' => l = l'
  | Err (PlusNotAtBlockStart _), Err (PlusNotAtBlockStart _) => True
  | Err (PnError _ _ e), Err (PnError _ _ e') => e = e'
  | Err EmptyBlock, Err EmptyBlock => True
  | _, _ => False
  end.

(** Characters which stand for any bell in a mask, and in a regex. *)
Definition mask_wildcard (c : N) : Prop := [c] = s2l "x" \/ [c] = s2l "X" \/ [c] = s2l ".".
Definition regex_wildcard (c : N) : Prop := [c] = s2l "x" \/ [c] = s2l ".".
