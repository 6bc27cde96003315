(** Specification vocabulary for masks, regexes and counting.  It talks about plain lists, numbers
    and chars, and the regex elements only. *)
From Verif Require Import Base Spec Music.
Local Open Scope list_scope.

(** ** Masks *)

(** Place [p] of the mask is required to hold bell [b] / is left open. *)
Definition specifies (m : list (option nat)) (p b : nat) : Prop := nth_error m p = Some (Some b).
Definition leaves_open (m : list (option nat)) (p : nat) : Prop := nth_error m p = Some None.

(** No bell is specified twice. *)
Definition each_bell_once (m : list (option nat)) : Prop :=
  forall p q b, specifies m p b -> specifies m q b -> p = q.

(** A mask some row can satisfy: it has a place, each bell is specified at most once, and only
    bells of the stage are specified. *)
Definition well_formed_mask (m : list (option nat)) : Prop :=
  m <> [] /\ each_bell_once m /\ forall p b, specifies m p b -> b < length m.

(** The row has the mask's stage and every specified place holds the specified bell. *)
Definition fits (m : list (option nat)) (r : list nat) : Prop :=
  length r = length m /\ forall p b, specifies m p b -> nth_error r p = Some b.

(** Strictly ascending numbers. *)
Definition ascending (l : list nat) : Prop :=
  forall i j x y, i < j -> nth_error l i = Some x -> nth_error l j = Some y -> x < y.

(** ** Regexes *)

(** The rows described by a list of elements: a bell is that bell, [x] any one bell, [*] any
    sequence of bells. *)
Inductive described : list regex_elem -> list nat -> Prop :=
| described_nil : described [] []
| described_bell b es bs : described es bs -> described (RBell b :: es) (b :: bs)
| described_any x es bs : described es bs -> described (RAny :: es) (x :: bs)
| described_glob xs es bs : described es bs -> described (RGlob :: es) (xs ++ bs).

(** Every glob is followed by a bell or ends the regex. *)
Definition normal_form (es : list regex_elem) : Prop :=
  forall i e, nth_error es i = Some RGlob -> nth_error es (S i) = Some e -> exists b, e = RBell b.

(** The bells written in a regex, in order; the number of [x]s. *)
Fixpoint bells_written (es : list regex_elem) : list nat :=
  match es with
  | [] => []
  | RBell b :: t => b :: bells_written t
  | _ :: t => bells_written t
  end.
Fixpoint count_any (es : list regex_elem) : nat :=
  match es with
  | [] => 0
  | RAny :: t => S (count_any t)
  | _ :: t => count_any t
  end.
Fixpoint count_glob (es : list regex_elem) : nat :=
  match es with
  | [] => 0
  | RGlob :: t => S (count_glob t)
  | _ :: t => count_glob t
  end.

(** What a char of a regex means; other chars mean nothing. *)
Inductive char_elem : N -> regex_elem -> Prop :=
| ce_x : char_elem 120%N RAny
| ce_dot : char_elem 46%N RAny
| ce_star : char_elem 42%N RGlob
| ce_bell c b : nth_error (s2l "1234567890ETABCDFGHJKLMNPQRSUVWYZ") b = Some c -> char_elem c (RBell b).

(** The elements written in a text. *)
Inductive regex_text : list N -> list regex_elem -> Prop :=
| rt_nil : regex_text [] []
| rt_elem c e t es : char_elem c e -> regex_text t es -> regex_text (c :: t) (e :: es)
| rt_skip c t es : (forall e, ~ char_elem c e) -> regex_text t es -> regex_text (c :: t) es.

(** The same for masks. *)
Inductive char_mask : N -> option nat -> Prop :=
| cm_open c : (c = 120 \/ c = 88 \/ c = 46)%N -> char_mask c None
| cm_bell c b : nth_error (s2l "1234567890ETABCDFGHJKLMNPQRSUVWYZ") b = Some c -> char_mask c (Some b).
Inductive mask_text : list N -> list (option nat) -> Prop :=
| mt_nil : mask_text [] []
| mt_elem c e t es : char_mask c e -> mask_text t es -> mask_text (c :: t) (e :: es)
| mt_skip c t es : (forall e, ~ char_mask c e) -> mask_text t es -> mask_text (c :: t) es.

(** ** Runs *)

(** The [len] bells from place [p] on are consecutive, going up / going down. *)
Definition run_up (r : list nat) (p len : nat) : Prop :=
  p + len <= length r /\
  forall j x y, S j < len -> nth_error r (p + j) = Some x -> nth_error r (p + S j) = Some y -> y = S x.
Definition run_down (r : list nat) (p len : nat) : Prop :=
  p + len <= length r /\
  forall j x y, S j < len -> nth_error r (p + j) = Some x -> nth_error r (p + S j) = Some y -> x = S y.
Definition run_at (r : list nat) (p len : nat) : Prop := run_up r p len \/ run_down r p len.

(** Neighbouring bells among the first [n] differ by exactly one. *)
Definition stepwise_prefix (l : list nat) (n : nat) : Prop :=
  n <= length l /\
  forall j x y, S j < n -> nth_error l j = Some x -> nth_error l (S j) = Some y -> x = S y \/ y = S x.

(** ** Counting *)

(** Exactly [n] lists have the property [P]. *)
Definition there_are (n : nat) (P : list nat -> Prop) : Prop :=
  exists l, length l = n /\ NoDup l /\ forall r, In r l <-> P r.

(** Pascal's triangle. *)
Fixpoint binomial (n k : nat) : nat :=
  match n, k with
  | _, O => 1
  | O, S _ => 0
  | S n', S k' => binomial n' k' + binomial n' k
  end.

(** [n!] as a machine-independent number. *)
Fixpoint factN (n : nat) : N := match n with O => 1%N | S n' => (N.of_nat n * factN n')%N end.
