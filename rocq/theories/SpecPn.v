(** Specification vocabulary for place notation. *)
From Verif Require Import Base Bell Spec PlaceNot.
Local Open Scope list_scope.

(** Reading the places of stage [s] from [i] upwards, each is either made (and listed next) or swaps
    with the one after it. *)
Inductive legal_from (s : nat) : nat -> list nat -> Prop :=
| lf_end : legal_from s s []
| lf_place i l : i < s -> legal_from s (i + 1) l -> legal_from s i (i :: l)
| lf_swap i l : i + 1 < s -> legal_from s (i + 2) l -> legal_from s i l.

(** A legal place notation. *)
Definition legal (pn : place_not) : Prop :=
  0 < pn_stage pn /\ legal_from (pn_stage pn) 0 (pn_places pn).

(** Ringing the change with places [made] takes the bells [r], standing from place [i] on, to [r']:
    the bells in the places made stay, the others exchange in adjacent pairs. *)
Inductive rings (made : list nat) : nat -> list nat -> list nat -> Prop :=
| rings_end i : rings made i [] []
| rings_place i b r r' : In i made -> rings made (i + 1) r r' -> rings made i (b :: r) (b :: r')
| rings_swap i a b r r' : ~ In i made -> ~ In (i + 1) made -> rings made (i + 2) r r' ->
    rings made i (a :: b :: r) (b :: a :: r').

(** The places named by a text, in the order written; all other characters are ignored. *)
Inductive written : list N -> list nat -> Prop :=
| written_end : written [] []
| written_name c b t l : bell_from_name c = Some b -> written t l -> written (c :: t) (b :: l)
| written_other c t l : bell_from_name c = None -> written t l -> written (c :: t) l.

Definition cross_text (t : list N) : Prop := t = s2l "x" \/ t = s2l "X" \/ t = s2l "-".

(** [p] and [q] are written with no other place written between them. *)
Definition consecutive (w : list nat) (p q : nat) : Prop :=
  In p w /\ In q w /\ p < q /\ forall x, In x w -> ~ (p < x < q).

(** The places made by the written places [w] on stage [s]: the written ones, the one place in a gap
    of one, the lead when an odd number of places is below the first one written, and the last
    place when an odd number of places is above the last one written. *)
Definition place_made (s : nat) (w : list nat) (p : nat) : Prop :=
  In p w \/
  (exists q, p = q + 1 /\ In q w /\ In (q + 2) w) \/
  (p = 0 /\ exists m, In m w /\ (forall q, In q w -> m <= q) /\ Nat.Odd m) \/
  (p = s - 1 /\ exists m, In m w /\ (forall q, In q w -> q <= m) /\ Nat.Odd (s - 1 - m)).

(** The written places can be read without ambiguity. *)
Definition unambiguous (s : nat) (w : list nat) : Prop :=
  w <> [] /\ NoDup w /\ (forall p, In p w -> p < s) /\
  (forall p q, consecutive w p q -> q = p + 2 \/ Nat.Even (q - p - 1)).

(** ** Blocks of place notation *)

Definition is_cross_char (c : N) : Prop := [c] = s2l "x" \/ [c] = s2l "X" \/ [c] = s2l "-".
Definition is_delimiter_char (c : N) : Prop := [c] = s2l " " \/ [c] = s2l ".".
Definition is_plus_char (c : N) : Prop := [c] = s2l "+".
Definition is_bell_char (c : N) : Prop := bell_from_name c <> None.
(** Any other character is ignored wherever it stands. *)
Definition is_ignored_char (c : N) : Prop :=
  ~ is_bell_char c /\ ~ is_cross_char c /\ ~ is_delimiter_char c /\ ~ is_plus_char c.

(** A piece of place notation: it starts with a bell name, and goes on with names or characters to
    be ignored. *)
Definition is_word (w : list N) : Prop :=
  (exists c w', w = c :: w' /\ is_bell_char c) /\ Forall (fun c => is_bell_char c \/ is_ignored_char c) w.

Definition ends_word (t : list N) : Prop :=
  match t with [] => True | c :: _ => is_delimiter_char c \/ is_cross_char c end.

(** The changes written in the text of a part (from which any leading [+] has been removed): crosses
    and words, the latter read as by [PlaceNot::parse]. *)
Inductive body_changes (s : nat) : list N -> list place_not -> Prop :=
| bc_end : body_changes s [] []
| bc_cross c t l : is_cross_char c -> s mod 2 = 0 -> body_changes s t l ->
    body_changes s (c :: t) (PlaceNot [] s :: l)
| bc_skip c t l : is_delimiter_char c \/ is_ignored_char c -> body_changes s t l ->
    body_changes s (c :: t) l
| bc_word w t l pn : is_word w -> ends_word t -> pn_parse w s = Ret (Ok pn) ->
    body_changes s t l -> body_changes s (w ++ t) (pn :: l).

(** A part: possibly a [+] which may follow characters without meaning, then the changes. *)
Inductive part_changes (s : nat) : list N -> bool -> list place_not -> Prop :=
| pc_plain t l : body_changes s t l -> part_changes s t false l
| pc_plus skip c t l : Forall (fun c => is_delimiter_char c \/ is_ignored_char c) skip ->
    is_plus_char c -> body_changes s t l -> part_changes s (skip ++ c :: t) true l.

Definition comma : N := 44.

(** Texts joined with commas. *)
Fixpoint join_comma (parts : list (list N)) : list N :=
  match parts with
  | [] => []
  | [p] => p
  | p :: t => p ++ comma :: join_comma t
  end.

(** The changes a part contributes: [single] when it is the whole text. *)
Definition unfold_part (single asym : bool) (l : list place_not) : list place_not :=
  if single || asym then l else l ++ tl (rev l).

Inductive parts_changes (s : nat) (single : bool) : list (list N) -> list place_not -> Prop :=
| psc_end : parts_changes s single [] []
| psc_part p asym l t l' : part_changes s p asym l -> parts_changes s single t l' ->
    parts_changes s single (p :: t) (unfold_part single asym l ++ l').

(** The changes described by a whole text. *)
Definition block_changes (s : nat) (t : list N) (l : list place_not) : Prop :=
  exists parts, parts <> [] /\ Forall (fun p => ~ In comma p) parts /\ t = join_comma parts /\
    parts_changes s (match parts with [_] => true | _ => false end) parts l.

(** The row [r'] is reached from [r] by the changes [pns], passing through the rows listed. *)
Inductive rung : list nat -> list place_not -> list (list nat) -> list nat -> Prop :=
| rung_end r : rung r [] [] r
| rung_change r pn pns r1 rs r' : rings (pn_places pn) 0 r r1 -> rung r1 pns rs r' ->
    rung r (pn :: pns) (r1 :: rs) r'.

(** ** Errors in blocks of place notation *)

(** [p] is one of the comma-separated parts of [t], standing between [before] and [after]. *)
Definition part_of (t before p after : list N) : Prop :=
  t = before ++ p ++ after /\ ~ In comma p /\
  (before = [] \/ exists b, before = b ++ [comma]) /\ (after = [] \/ exists a, after = comma :: a).

(** [w], standing between [x] and [y] in the part [p], is not a place notation, for the reason [e]. *)
Definition bad_word (s : nat) (p x w y : list N) (e : pn_error) : Prop :=
  p = x ++ w ++ y /\ is_word w /\ ends_word y /\ pn_parse w s = Ret (Err e).
Definition bad_cross (s : nat) (p x : list N) (c : N) (y : list N) (e : pn_error) : Prop :=
  p = x ++ c :: y /\ is_cross_char c /\ s mod 2 = 1 /\ e = OddStageCross s.

(** The [+] between [x] and [y] in a part is not the one which may start the part. *)
Definition misplaced_plus (p x : list N) (c : N) (y : list N) : Prop :=
  p = x ++ c :: y /\ is_plus_char c /\ exists d, In d x /\ ~ is_delimiter_char d /\ ~ is_ignored_char d.
