(** Specification vocabulary for texts and comparisons. *)
From Verif Require Import Base.
Local Open Scope list_scope.

(** Texts joined with ", ". *)
Fixpoint listed (texts : list (list N)) : list N :=
  match texts with
  | [] => []
  | [t] => t
  | t :: l => t ++ s2l ", " ++ listed l
  end.

(** The order of dictionaries. *)
Inductive lex_lt : list nat -> list nat -> Prop :=
| lex_shorter a x u : lex_lt a (a ++ x :: u)
| lex_smaller p x y u v : x < y -> lex_lt (p ++ x :: u) (p ++ y :: v).
