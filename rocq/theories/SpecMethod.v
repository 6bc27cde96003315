(** Specification vocabulary for methods and calls. *)
From Verif Require Import Base Spec Stage Row Block SpecBlock PlaceNot Class Method.
Local Open Scope list_scope.

(** ** Labels *)

Inductive label_op :=
| OpSet (i : nat) (l : option (list N))   (* set_label *)
| OpLeadEnd.                              (* set_lead_end_label *)

Definition op_index (o : label_op) : nat := match o with OpSet i _ => i | OpLeadEnd => 0 end.
Definition op_label (o : label_op) : option (list N) :=
  match o with OpSet _ l => l | OpLeadEnd => Some (s2l "LE") end.

(** The label at index [i] after the calls [ops], if it was [l] before. *)
Fixpoint last_label (ops : list label_op) (i : nat) (l : option (list N)) : option (list N) :=
  match ops with
  | [] => l
  | o :: t => last_label t i (if op_index o =? i then op_label o else l)
  end.

(** Driving the model. *)
Definition label_call (m : method) (o : label_op) : exec method :=
  match o with OpSet i l => set_label m i l | OpLeadEnd => set_lead_end_label m end.
Fixpoint label_calls (m : method) (ops : list label_op) : exec method :=
  match ops with
  | [] => Ret m
  | o :: t => m' <- label_call m o;; label_calls m' t
  end.

(** ** Titles *)

(** Words joined with single spaces. *)
Fixpoint joined (words : list (list N)) : list N :=
  match words with
  | [] => []
  | [w] => w
  | w :: t => w ++ [32%N] ++ joined t
  end.

Definition word_if (b : bool) (w : list N) : list (list N) := if b then [w] else [].

(** The parts of a class written in a title: principles and hybrids have no class name (and are not
    called little there). *)
Definition title_words (c : full_class) : list (list N) :=
  word_if (is_jump c) (s2l "Jump") ++ word_if (is_differential c) (s2l "Differential") ++
  match fc_class c with
  | Principle | Hybrid => []
  | Place => word_if (is_little c) (s2l "Little") ++ [s2l "Place"]
  | Bob => word_if (is_little c) (s2l "Little") ++ [s2l "Bob"]
  | TrebleBob => word_if (is_little c) (s2l "Little") ++ [s2l "Treble Bob"]
  | Delight => word_if (is_little c) (s2l "Little") ++ [s2l "Delight"]
  | Surprise => word_if (is_little c) (s2l "Little") ++ [s2l "Surprise"]
  | TreblePlace => word_if (is_little c) (s2l "Little") ++ [s2l "Treble Place"]
  | Alliance => word_if (is_little c) (s2l "Little") ++ [s2l "Alliance"]
  end.

(** The parts of a class written for display. *)
Definition display_words (c : full_class) : list (list N) :=
  word_if (is_jump c) (s2l "Jump") ++ word_if (is_differential c) (s2l "Differential") ++
  word_if (is_little c) (s2l "Little") ++
  [match fc_class c with
   | Principle => s2l "Principle" | Place => s2l "Place" | Bob => s2l "Bob"
   | TrebleBob => s2l "Treble Bob" | Delight => s2l "Delight" | Surprise => s2l "Surprise"
   | TreblePlace => s2l "Treble Place" | Alliance => s2l "Alliance" | Hybrid => s2l "Hybrid"
   end].

Definition name_words (name : list N) : list (list N) :=
  match name with [] => [] | _ => [name] end.
