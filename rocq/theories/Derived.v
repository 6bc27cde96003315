(** Model of more derived comparisons: [derive(PartialEq, Hash)] of place notation, masks and regexes is
    expanded by the compiler to the definitions below.  A hasher is fed with numbers only. *)
From Verif Require Import Base Bell Stage Row Utils SameStageVec Block PlaceNot Mask Music.
Local Open Scope list_scope.

(* [PartialEq] of [Vec<T>], used by the derived ones (place_not.rs 55 and 422, mask.rs 18, music.rs 49) *)
Fixpoint vec_eqb {T} (eqb : T -> T -> bool) (a b : list T) : bool :=
  match a, b with
  | [], [] => true
  | x :: a', y :: b' => eqb x y && vec_eqb eqb a' b'
  | _, _ => false
  end.

(* [Hash] of [Vec<T>], used likewise: the length, and then each element *)
Definition vec_feed {T} (feed : T -> list nat) (l : list T) : list nat := length l :: flat_map feed l.

(* place_not.rs 55-76 *)
Definition pn_eqb (p q : place_not) : bool := vec_eqb Nat.eqb (pn_places p) (pn_places q) && (pn_stage p =? pn_stage q).
(* place_not.rs 55-76 *)
Definition pn_feed (p : place_not) : list nat := vec_feed (fun x => [x]) (pn_places p) ++ [pn_stage p].

(* place_not.rs 422-428 *)
Definition pn_block_eqb (a b : pn_block) : bool := vec_eqb pn_eqb a b.
(* place_not.rs 422-428 *)
Definition pn_block_feed (a : pn_block) : list nat := vec_feed pn_feed a.

(* mask.rs 18-21 *)
Definition mask_eqb (a b : mask) : bool := vec_eqb obell_eqb a b.
(* mask.rs 18-21: an option writes the number of its variant first *)
Definition mask_feed (a : mask) : list nat :=
  vec_feed (fun o => match o with None => [0] | Some b => [1; b] end) a.

(* music.rs 49-67 *)
Definition regex_eqb (a b : regex) : bool := vec_eqb elem_eqb a b.
(* music.rs 49-67 and 12-20: the number of the variant comes first *)
Definition regex_feed (a : regex) : list nat :=
  vec_feed (fun e => match e with RBell b => [0; b] | RAny => [1] | RGlob => [2] end) a.
