(** Specification vocabulary for plain hunting. *)
From Verif Require Import Base PlaceNot.
Local Open Scope list_scope.

(** The two changes of plain hunting on [n] bells.  First every pair from the front changes over; the
    last bell stays if it is left over.  Then the bell in front stays and every pair from the second
    place on changes over; the last bell stays if it is left over. *)
Definition hunting (n : nat) : list place_not :=
  [PlaceNot (if Nat.even n then [] else [n - 1]) n;
   PlaceNot (if Nat.even n then [0; n - 1] else [0]) n].

(** Where a hunting bell is [k] rows after it struck in front for the first of two times, for
    [k < 2 * n]: out to the back one place at a time, there for two rows, and in again. *)
Definition out_and_in (n k : nat) : nat := if k <? n then k else 2 * n - 1 - k.

(** In rounds the bells on even places (counted from 0) are on their way out, the others on their way
    in.  So this is the place of bell [b] in row [t]. *)
Definition hunting_place (n b t : nat) : nat :=
  out_and_in n (((if Nat.even b then b else 2 * n - 1 - b) + t) mod (2 * n)).

(** Plain Bob: plain hunting until the treble is in front again, then the bell in second place stays too
    (and the others change over from the third place on; the last bell stays if it is left over). *)
Definition plain_bob (n : nat) : list place_not :=
  firstn (2 * n - 1) (concat (repeat (hunting n) n)) ++
  [PlaceNot (if Nat.even n then [0; 1] else [0; 1; n - 1]) n].

(** A path (of one lead, to be read cyclically) which hunts between the places [a] and [a + h - 1]. *)
Definition hunts_between (p : list nat) (a h : nat) : Prop :=
  length p = 2 * h /\ exists k, forall i, i < 2 * h -> nth_error p ((k + i) mod (2 * h)) = Some (a + out_and_in h i).

(** A path which dodges once, twice to and fro between two places. *)
Definition dodges_between (p : list nat) (a : nat) : Prop := p = [a; a + 1; a; a + 1] \/ p = [a + 1; a; a + 1; a].

(** A path which moves by at most one place at a time, and is closed. *)
Definition closed_path (p : list nat) : Prop :=
  forall i x y, nth_error p i = Some x -> nth_error p ((i + 1) mod length p) = Some y -> x <= y + 1 /\ y <= x + 1.
