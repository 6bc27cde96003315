(** Model of /repo/src/mask.rs. *)
From Verif Require Import Base Bell Stage Row Block Music.
Local Open Scope list_scope.

(* mask.rs 18-21: a [Mask] is its list of optional bells *)
Notation mask := (list (option bell)) (only parsing).

(* [PartialEq] of [Option<Bell>], mask.rs 137, 227 *)
Definition obell_eqb (a b : option bell) : bool :=
  match a, b with
  | Some x, Some y => x =? y
  | None, None => true
  | _, _ => false
  end.

(* mask.rs 27-34: the meaning of a character; 120 is [x], 88 is [X], 46 is [.] *)
Definition mask_char (c : char) : option (option bell) :=
  if (c =? 120)%N || (c =? 88)%N || (c =? 46)%N then Some None
  else option_map Some (bell_from_name c).

(* mask.rs 24-38 *)
Definition mask_parse (t : str) : mask := filter_map mask_char t.

(* mask.rs 41-45 *)
Definition mask_full_row (r : row) : mask := map Some r.

(* mask.rs 49-55 *)
Definition mask_empty (s : stage) : mask := repeat None s.

(* mask.rs 156-158: panics when the place is out of range *)
Definition mask_set_bell_unchecked (m : mask) (b : bell) (place : nat) : exec mask :=
  set_idx m place (Some b).

(* mask.rs 82-84 *)
Definition mask_fix_unchecked (m : mask) (b : bell) : exec mask := mask_set_bell_unchecked m b b.

(* mask.rs 58-65 *)
Definition mask_fix_bells (s : stage) (fixed_bells : list bell) : exec mask :=
  foldM mask_fix_unchecked fixed_bells (mask_empty s).

(* mask.rs 133-148; the error value is [BellAlreadySet] *)
Definition mask_set_bell (m : mask) (b : bell) (place : nat) : exec (mask * result unit unit) :=
  match position (fun x => obell_eqb x (Some b)) m with
  | Some p => if p =? place then Ret (m, Ok tt) else Ret (m, Err tt)
  | None => m' <- mask_set_bell_unchecked m b place;; Ret (m', Ok tt)
  end.

(* mask.rs 70-72 *)
Definition mask_fix (m : mask) (b : bell) : exec (mask * result unit unit) := mask_set_bell m b b.

(* mask.rs 87-93, iterated to the end *)
Definition mask_unspecified_places (m : mask) : list nat :=
  map fst (filter (fun '(_, b) => match b with None => true | Some _ => false end) (enumerate m)).

(* mask.rs 97-99 *)
Definition mask_stage (m : mask) : exec stage := stage_new (length m).

(* mask.rs 108-117: the loop *)
Fixpoint mask_matches_loop (pairs : list (option bell * bell)) : bool :=
  match pairs with
  | [] => true
  | (Some b, real_bell) :: t => if b =? real_bell then mask_matches_loop t else false
  | (None, _) :: t => mask_matches_loop t
  end.

(* mask.rs 102-118 *)
Definition mask_matches (m : mask) (r : row) : exec bool :=
  s1 <- mask_stage m;; s2 <- row_stage r;;
  if negb (s1 =? s2) then Ret false
  else pairs <- zip_eq m r;; Ret (mask_matches_loop pairs).

(* mask.rs 123-130: the loop returns the first index *)
Definition mask_place_of (m : mask) (b : bell) : option nat := position (fun x => obell_eqb x (Some b)) m.

(* mask.rs 160-162 *)
Definition mask_is_empty (m : mask) : bool := forallb (fun b => match b with None => true | Some _ => false end) m.

(* mask.rs 165-173; [from_bell_iter_unchecked] builds the row without any check *)
Definition mask_as_row (m : mask) : exec (option row) :=
  if forallb (fun b => match b with Some _ => true | None => false end) m
  then r <- mapM unwrap m;; Ret (Some r)
  else Ret None.

(* mask.rs 184-197: the loop *)
Fixpoint mask_subset_loop (pairs : list (option bell * option bell)) : bool :=
  match pairs with
  | [] => true
  | (None, Some _) :: _ => false
  | (Some b_self, Some b_other) :: t => if negb (b_self =? b_other) then false else mask_subset_loop t
  | (_, None) :: t => mask_subset_loop t
  end.

(* mask.rs 177-201 *)
Definition mask_is_subset_of (m other : mask) : exec bool :=
  s1 <- mask_stage m;; s2 <- mask_stage other;;
  if negb (s1 =? s2) then Ret false
  else pairs <- zip_eq m other;; Ret (mask_subset_loop pairs).

(* mask.rs 215-233: the loop over the enumerated pairs (bell of [other], bell of [self]) *)
Fixpoint mask_compat_loop (m : mask) (l : list (nat * (option bell * option bell))) : bool :=
  match l with
  | [] => true
  | (i, (maybe_bell_other, maybe_bell_self)) :: t =>
      match maybe_bell_other with
      | None => mask_compat_loop m t
      | Some b_other =>
          if negb (match maybe_bell_self with None => true | Some b_self => b_self =? b_other end) then false
          else if negb (match position (fun x => obell_eqb x (Some b_other)) m with
                        | None => true
                        | Some idx_self => i =? idx_self
                        end) then false
          else mask_compat_loop m t
      end
  end.

(* mask.rs 206-237 *)
Definition mask_is_compatible_with (m other : mask) : exec bool :=
  s1 <- mask_stage m;; s2 <- mask_stage other;;
  if negb (s1 =? s2) then Ret false
  else pairs <- zip_eq other m;; Ret (mask_compat_loop m (enumerate pairs)).

(* mask.rs 252-259: the closure, with its assertion *)
Definition combine_bells (p : option bell * option bell) : exec (option bell) :=
  match p with
  | (Some b1, Some b2) => assert_ (b1 =? b2);;; Ret (Some b1)
  | (Some b1, None) => Ret (Some b1)
  | (None, maybe_bell) => Ret maybe_bell
  end.

(* mask.rs 242-262 *)
Definition mask_combine (m other : mask) : exec (option mask) :=
  c <- mask_is_compatible_with m other;;
  if negb c then Ret None
  else pairs <- zip_eq m other;; bells <- mapM combine_bells pairs;; Ret (Some bells).

(* mask.rs 277-287 *)
Definition mask_display (m : mask) : str :=
  concat (map (fun b => match b with Some b => bell_name b | None => s2l "x" end) m).

(* mask.rs 291-307: mask * row *)
Definition mask_mul_row (m : mask) (r : row) : exec mask :=
  s1 <- mask_stage m;; s2 <- row_stage r;;
  assert_ (s1 =? s2);;;
  mapM (fun b => idx m b) r.

(* mask.rs 310-329: row * mask *)
Definition row_mul_mask (r : row) (m : mask) : exec mask :=
  s1 <- row_stage r;; s2 <- mask_stage m;;
  assert_ (s1 =? s2);;;
  mapM (fun maybe_bell => match maybe_bell with
                          | None => Ret None
                          | Some b => x <- idx r b;; Ret (Some x)
                          end) m.

(* mask.rs 333-341 *)
Definition mask_to_regex (m : mask) : exec regex :=
  regex_from_vec (map (fun b => match b with None => RAny | Some b => RBell b end) m).
