(** Specification vocabulary used by the property theorems.  It talks about plain lists, numbers
    and chars only, never about the model's own helper functions. *)
From Verif Require Import Base.
Local Open Scope list_scope.

(** ** Bell names and numerals *)

(** The chars used as bell names: digits, and capitals except I, O and X. *)
Definition is_bell_name_char (c : N) : Prop :=
  (48 <= c <= 57 \/ (65 <= c <= 90 /\ c <> 73 /\ c <> 79 /\ c <> 88))%N.

(** The bells named in a text, in order; all other chars are skipped. *)
Definition names_of_bells : list N := s2l "1234567890ETABCDFGHJKLMNPQRSUVWYZ".
Inductive names_bells : list N -> list nat -> Prop :=
| names_end : names_bells [] []
| names_bell c b t l : nth_error names_of_bells b = Some c -> names_bells t l -> names_bells (c :: t) (b :: l)
| names_skip c t l : ~ In c names_of_bells -> names_bells t l -> names_bells (c :: t) l.

(** The names of the stages of 1, 2, 3, .. bells. *)
Definition names_of_stages : list (list N) :=
  map s2l ["One"; "Two"; "Singles"; "Minimus"; "Doubles"; "Minor"; "Triples"; "Major"; "Caters"; "Royal"; "Cinques";
           "Maximus"; "Sextuples"; "Fourteen"; "Septuples"; "Sixteen"; "Octuples"; "Eighteen"; "Nonuples"; "Twenty";
           "Decuples"; "Twenty-two"]%string.

(** The number denoted by a string of decimal digits. *)
Definition decimal_value (s : list N) : N :=
  fold_left (fun acc c => 10 * acc + (c - 48))%N s 0%N.
Definition is_decimal (s : list N) : Prop := s <> [] /\ Forall (fun c => (48 <= c <= 57)%N) s.

(** ASCII lower-casing, char by char. *)
Definition ascii_lower (c : N) : N := if ((65 <=? c) && (c <=? 90))%N then (c + 32)%N else c.

(** ** Rows *)

(** A row on [length r] bells: at least one bell, and every bell of the stage occurs exactly
    once, no others occur. *)
Definition valid_row (r : list nat) : Prop :=
  r <> [] /\ NoDup r /\ (forall b, In b r <-> b < length r).

(** [c] is the composition "a after b": the bell in place [i] of [c] is the bell which [a] has in
    the place numbered by the [i]-th bell of [b]. *)
Definition composition (a b c : list nat) : Prop :=
  length c = length b /\
  forall i x, nth_error b i = Some x ->
    exists y, nth_error a x = Some y /\ nth_error c i = Some y.

(** [b] is the first of the rows whose stage is not that of the first row [a]. *)
Definition first_of_another_stage (rows : list (list nat)) (a b : list nat) : Prop :=
  exists between after, rows = a :: between ++ b :: after /\
    (forall x, In x between -> length x = length a) /\ length b <> length a.

(** The identity row. *)
Definition is_identity (r : list nat) : Prop := forall i b, nth_error r i = Some b -> b = i.

(** The product of [n] copies of [r] (starting from rounds). *)
Inductive power (r : list nat) : nat -> list nat -> Prop :=
| power_0 p : length p = length r -> is_identity p -> power r 0 p
| power_S n p q : power r n p -> composition p r q -> power r (S n) q.

(** [s] is [r] with the bells in places [i] and [j] exchanged. *)
Definition swapped (r s : list nat) (i j : nat) : Prop :=
  i < length r /\ j < length r /\ length s = length r /\
  nth_error s i = nth_error r j /\ nth_error s j = nth_error r i /\
  forall k, k <> i -> k <> j -> nth_error s k = nth_error r k.

(** [r] can be turned into [s] by [n] swaps of two different places. *)
Inductive swaps_to : list nat -> nat -> list nat -> Prop :=
| swaps_done r : swaps_to r 0 r
| swaps_more r i j s n t : i <> j -> swapped r s i j -> swaps_to s n t -> swaps_to r (S n) t.

(** ** Groups of rows *)

(** A set of rows on [n] bells which contains the identity and is closed under composition and
    inversion. *)
Record subgroup (n : nat) (S : list nat -> Prop) : Prop := {
  sg_identity : forall e, length e = n -> is_identity e -> S e;
  sg_mul : forall a b c, S a -> S b -> composition a b c -> S c;
  sg_inv : forall a b e, S a -> length b = n -> length e = n -> valid_row b ->
             is_identity e -> composition a b e -> S b
}.

(** All ways to take one element of each list, in order. *)
Fixpoint picks {A} (ls : list (list A)) : list (list A) :=
  match ls with
  | [] => [[]]
  | l :: t => flat_map (fun x => map (cons x) (picks t)) l
  end.

(** [is_product xs p]: [p] is the product of the non-empty list [xs], from left to right. *)
Inductive is_product : list (list nat) -> list nat -> Prop :=
| prod_one x : is_product [x] x
| prod_snoc xs p y q : is_product xs p -> composition p y q -> is_product (xs ++ [y]) q.

(** [s] lists the elements of the hash set collected from [l], in some iteration order. *)
Definition collected_set {A} (l s : list A) : Prop := NoDup s /\ forall x, In x s <-> In x l.
