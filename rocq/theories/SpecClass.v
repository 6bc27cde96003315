(** Specification vocabulary for the classification of methods.  A lead is given by its rows and
    its lead head (the left-over row). *)
From Verif Require Import Base Spec SpecBlock Class.
Local Open Scope list_scope.

(** ** Bells and their paths *)

(** A bell which the lead brings back to its place. *)
Definition hunt_bell (head : list nat) (x : nat) : Prop := nth_error head x = Some x.

(** The places of bell [x] in the rows of the lead. *)
Definition path_in (rows : list (list nat)) (x : nat) : list nat := map (fun r => place_in r x) rows.

(** The places in which one bell starts successive leads, until it comes back to the first. *)
Definition is_cycle (head pbs : list nat) : Prop :=
  pbs <> [] /\ NoDup pbs /\
  forall i x y, nth_error pbs i = Some x -> nth_error pbs ((i + 1) mod length pbs) = Some y ->
    nth_error head y = Some x.

(** Bell [x] is back in its place for the first time after [k] leads. *)
Definition returns_after (head : list nat) (x k : nat) : Prop :=
  0 < k /\ (exists h, power head k h /\ nth_error h x = Some x) /\
  forall j h, 0 < j < k -> power head j h -> nth_error h x <> Some x.

(** In row [t] of the (endless) plain course, bell [x] is in place [p]. *)
Definition course_place (rows : list (list nat)) (head : list nat) (x t p : nat) : Prop :=
  exists r h r', nth_error rows (t mod length rows) = Some r /\ power head (t / length rows) h /\
    composition h r r' /\ nth_error r' p = Some x.

(** ** Classes of hunt bell paths (of one lead, to be read cyclically) *)

Definition visits (p : list nat) (q : nat) : nat := count_occ Nat.eq_dec p q.
Definition stationary (p : list nat) : Prop := exists q, forall x, In x p -> x = q.
Definition each_place_twice (p : list nat) : Prop := forall q, In q p -> visits p q = 2.
(** Read backwards from a suitable row, the path is the same. *)
Definition symmetric (p : list nat) : Prop := exists a b, p = a ++ b /\ rev p = b ++ a.
Definition equally_covered (p : list nat) : Prop :=
  forall q r, In q p -> In r p -> visits p q = visits p r.
(** How often the bell stays in its place from one row to the next. *)
Definition places_made (p : list nat) : nat :=
  length (filter (fun i => nth i p 0 =? nth ((i + 1) mod length p) p 0) (seq 0 (length p))).

Inductive path_class (p : list nat) : hunt_bell_class -> Prop :=
| pc_stationary : stationary p -> path_class p HTreblePlace
| pc_plain : ~ stationary p -> each_place_twice p -> path_class p HPlain
| pc_treble_dodging : ~ stationary p -> ~ each_place_twice p ->
    symmetric p -> equally_covered p -> places_made p = 2 -> path_class p HTrebleDodging
| pc_treble_place : ~ stationary p -> ~ each_place_twice p ->
    symmetric p -> equally_covered p -> 2 < places_made p -> path_class p HTreblePlace
| pc_few_places : ~ stationary p -> ~ each_place_twice p ->
    symmetric p -> equally_covered p -> places_made p < 2 -> path_class p HHybrid
| pc_alliance : ~ stationary p -> ~ each_place_twice p ->
    symmetric p -> ~ equally_covered p -> path_class p HAlliance
| pc_asymmetric : ~ stationary p -> ~ each_place_twice p -> ~ symmetric p -> path_class p HHybrid.

(** The smaller, the more dominant. *)
Definition dominance (h : hunt_bell_class) : nat :=
  match h with
  | HPlain => 1 | HTrebleDodging => 2 | HTreblePlace => 3 | HAlliance => 4 | HHybrid => 5
  end.

(** [x] is a hunt bell of class [h], and no hunt bell is of a more dominant class. *)
Definition dominant (rows : list (list nat)) (head : list nat) (x : nat) (h : hunt_bell_class) : Prop :=
  hunt_bell head x /\ path_class (path_in rows x) h /\
  forall y h', hunt_bell head y -> path_class (path_in rows y) h' -> dominance h <= dominance h'.

(** ** Classes of methods *)

(** In the plain course the bell turns round without making a place. *)
Definition turns_sharply (rows : list (list nat)) (head : list nat) (x : nat) : Prop :=
  exists t p q, course_place rows head x t p /\ course_place rows head x (t + 1) q /\
    course_place rows head x (t + 2) p /\ (q = p + 1 \/ p = q + 1).

(** From row [i] of the lead to the next one, hunt bell [x] moves between two of the pairs of
    places, counted from the lowest place it visits, in which it dodges. *)
Definition crosses (rows : list (list nat)) (x i : nat) : Prop :=
  exists a b m, nth_error (path_in rows x) i = Some a /\
    nth_error (path_in rows x) ((i + 1) mod length rows) = Some b /\
    In m (path_in rows x) /\ (forall q, In q (path_in rows x) -> m <= q) /\
    (a - m) / 2 <> (b - m) / 2.

(** Row [i] of the lead and the one after it, which may be the lead head. *)
Definition change_at (rows : list (list nat)) (head : list nat) (i : nat) (r1 r2 : list nat) : Prop :=
  nth_error (rows ++ [head]) i = Some r1 /\ nth_error (rows ++ [head]) (i + 1) = Some r2.

(** Some bell stays in a place which is neither the first nor the last. *)
Definition internal_place (r1 r2 : list nat) : Prop :=
  exists p b, 0 < p /\ p + 1 < length r1 /\ nth_error r1 p = Some b /\ nth_error r2 p = Some b.

(** No bell moves by more than one place. *)
Definition no_jump (r1 r2 : list nat) : Prop :=
  forall b p q, nth_error r1 p = Some b -> nth_error r2 q = Some b -> p <= q + 1 /\ q <= p + 1.

(** A change at which some dominant treble dodging hunt bell crosses. *)
Definition cross_section (rows : list (list nat)) (head : list nat) (r1 r2 : list nat) : Prop :=
  exists x i, dominant rows head x HTrebleDodging /\ crosses rows x i /\ change_at rows head i r1 r2.

Definition all_cross_sections (rows : list (list nat)) (head : list nat)
  (P : list nat -> list nat -> Prop) : Prop :=
  forall r1 r2, cross_section rows head r1 r2 -> P r1 r2.

(** The class of a method whose dominant hunt bells have a path of the given class. *)
Inductive method_class (rows : list (list nat)) (head : list nat)
  : hunt_bell_class -> class -> Prop :=
| mc_bob x : x < length head -> ~ dominant rows head x HPlain -> turns_sharply rows head x ->
    method_class rows head HPlain Bob
| mc_place : (forall x, x < length head -> ~ dominant rows head x HPlain -> ~ turns_sharply rows head x) ->
    method_class rows head HPlain Place
| mc_surprise r1 r2 : cross_section rows head r1 r2 ->
    all_cross_sections rows head internal_place -> method_class rows head HTrebleDodging Surprise
| mc_treble_bob : all_cross_sections rows head (fun r1 r2 => ~ internal_place r1 r2) ->
    method_class rows head HTrebleDodging TrebleBob
| mc_delight : ~ all_cross_sections rows head internal_place ->
    ~ all_cross_sections rows head (fun r1 r2 => ~ internal_place r1 r2) ->
    method_class rows head HTrebleDodging Delight
| mc_treble_place : method_class rows head HTreblePlace TreblePlace
| mc_alliance : method_class rows head HAlliance Alliance
| mc_hybrid : method_class rows head HHybrid Hybrid.
