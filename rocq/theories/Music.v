(** Model of /repo/src/music.rs: regexes over rows. *)
From Verif Require Import Base Bell Stage Row Utils.
Local Open Scope list_scope.

(* music.rs 12-20 *)
Inductive regex_elem :=
| RBell (b : bell)
| RAny
| RGlob.

(* music.rs 48-61: a [Regex] is its list of elements *)
Notation regex := (list regex_elem) (only parsing).

(* music.rs 25-30 *)
Definition elem_bell (e : regex_elem) : option bell := match e with RBell b => Some b | _ => None end.

(* music.rs 33-41 *)
Definition elem_display (e : regex_elem) : str :=
  match e with RBell b => bell_name b | RAny => s2l "x" | RGlob => s2l "*" end.

(* music.rs 444-451 *)
Definition regex_display (es : regex) : str := concat (map elem_display es).

(** [slice::split_inclusive]: chunks which end with an element satisfying [p], and what is left. *)
(* music.rs 123 *)
Fixpoint split_inclusive {A} (p : A -> bool) (cur l : list A) : list (list A) :=
  match l with
  | [] => match cur with [] => [] | _ => [cur] end
  | x :: t => if p x then (cur ++ [x]) :: split_inclusive p [] t else split_inclusive p (cur ++ [x]) t
  end.

(* music.rs 123 *)
Definition is_rbell (e : regex_elem) : bool := match e with RBell _ => true | _ => false end.
(* music.rs 134 *)
Definition is_rany (e : regex_elem) : bool := match e with RAny => true | _ => false end.
(* music.rs 137 *)
Definition is_rglob (e : regex_elem) : bool := match e with RGlob => true | _ => false end.
(* derived [PartialEq], music.rs 12; used at 148 *)
Definition elem_eqb (a b : regex_elem) : bool :=
  match a, b with
  | RBell x, RBell y => x =? y
  | RAny, RAny | RGlob, RGlob => true
  | _, _ => false
  end.

(* music.rs 121-141: the body of the loop; [slice[..slice.len() - 1]] and [slice[slice.len() - 1]]
   panic on an empty slice, as does the assertion *)
Definition normalise_slice (slice : list regex_elem) : exec (list regex_elem) :=
  assert_ (match slice with [] => false | _ => true end);;;
  let wildcards_pattern := removelast slice in
  bell_elem <- idx slice (length slice - 1);;
  let num_wildcards := length (filter is_rany wildcards_pattern) in
  Ret (repeat RAny num_wildcards
       ++ (if existsb is_rglob wildcards_pattern then [RGlob] else [])
       ++ [bell_elem]).

(* music.rs 113-149; [Vec::pop] and the final assertion *)
Definition normalise (es : regex) : exec regex :=
  parts <- mapM normalise_slice (split_inclusive is_rbell [] (es ++ [RBell TREBLE]));;
  let normalised_elems := concat parts in
  match rev normalised_elems with
  | [] => Panic
  | last :: _ => assert_ (elem_eqb last (RBell TREBLE));;; Ret (removelast normalised_elems)
  end.

(* music.rs 77-79 and 92-98 *)
Definition regex_from_vec (es : list regex_elem) : exec regex := normalise es.

(* music.rs 68-74: the meaning of a character; 120 is [x], 46 is [.], 42 is [*] *)
Definition regex_char (c : char) : option regex_elem :=
  if (c =? 120)%N || (c =? 46)%N then Some RAny
  else if (c =? 42)%N then Some RGlob
  else option_map RBell (bell_from_name c).

(* music.rs 68-74 *)
Definition regex_parse (t : str) : exec regex := regex_from_vec (filter_map regex_char t).

(* music.rs 163, 195, 227: the bells of a run starting from bell [i] *)
Definition run_iterator (i len : nat) : list regex_elem := map RBell (range i (i + len)).

(* music.rs 153-181; [num_bells - len] does not underflow after the check *)
Definition runs_front (s : stage) (len : nat) : list regex :=
  if s <? len then []
  else flat_map (fun i => [run_iterator i len ++ [RGlob]; rev (run_iterator i len) ++ [RGlob]])
         (range 0 (s - len + 1)).

(* music.rs 185-213 *)
Definition runs_back (s : stage) (len : nat) : list regex :=
  if s <? len then []
  else flat_map (fun i => [[RGlob] ++ run_iterator i len; [RGlob] ++ rev (run_iterator i len)])
         (range 0 (s - len + 1)).

(* music.rs 217-252 *)
Definition all_runs (s : stage) (len : nat) : list regex :=
  if s <? len then []
  else flat_map (fun i => [[RGlob] ++ run_iterator i len ++ [RGlob]; [RGlob] ++ rev (run_iterator i len) ++ [RGlob]])
         (range 0 (s - len + 1)).

(* music.rs 256-261 *)
Definition runs_front_or_back (s : stage) (len : nat) : list regex := runs_front s len ++ runs_back s len.

(* music.rs 265-271 *)
Definition regex_runs (s : stage) (len : nat) (internal : bool) : list regex :=
  if internal then all_runs s len else runs_front_or_back s len.

(** The [factorial] crate's [checked_factorial] on a [w]-bit machine: the product of [1..=n],
    [None] when a partial product overflows.  (External: trusted to behave like this.) *)
Fixpoint checked_factorial (w : N) (n : nat) : option N :=
  match n with
  | O => Some 1%N
  | S n' =>
      match checked_factorial w n' with
      | None => None
      | Some f => if (f * N.of_nat n <? 2 ^ w)%N then Some (f * N.of_nat n)%N else None
      end
  end.

(* music.rs 314-324: the counting loop; [num_unfixed -= 1] panics below zero (debug builds) *)
Fixpoint count_elems (es : regex) (num_unfixed num_wildcards num_globs : nat) : exec (nat * nat * nat) :=
  match es with
  | [] => Ret (num_unfixed, num_wildcards, num_globs)
  | RBell _ :: t =>
      match num_unfixed with
      | O => Panic
      | S n => count_elems t n num_wildcards num_globs
      end
  | RAny :: t => count_elems t num_unfixed (num_wildcards + 1) num_globs
  | RGlob :: t => count_elems t num_unfixed num_wildcards (num_globs + 1)
  end.

(* music.rs 281-336 on a [w]-bit machine; the subtraction on line 329 and the multiplication on line
   335 are unchecked: they panic when they overflow (debug builds).  [saturating_sub] is [-]. *)
Definition num_matching_rows (w : N) (es : regex) (s : stage) : exec (option N) :=
  '(num_unfixed, num_wildcards, num_globs) <- count_elems es s 0 0;;
  c <- choice w (N.of_nat num_unfixed) (N.of_nat num_wildcards);;
  match c with
  | None => Ret None
  | Some ways_to_fill_wildcards =>
      assert_ (num_wildcards <=? num_unfixed);;;
      let num_bells_in_globs := num_unfixed - num_wildcards in
      match checked_factorial w (num_bells_in_globs + (num_wildcards - 1)) with
      | None => Ret None
      | Some numerator =>
          match checked_factorial w (num_globs - 1) with
          | None => Ret None
          | Some denominator =>
              let res := (ways_to_fill_wildcards * (numerator / denominator))%N in
              if (res <? 2 ^ w)%N then Ret (Some res) else Panic
          end
      end
  end.

(* music.rs 412-426: the inner loop, which looks for a bell *)
Fixpoint skip_to (exp_bell : bell) (bells : list (nat * bell)) : option (nat * list (nat * bell)) :=
  match bells with
  | [] => None
  | (i, b) :: t => if b =? exp_bell then Some (i, t) else skip_to exp_bell t
  end.

(* music.rs 369-441; [bells] is what the enumerated iterator still has to yield, and [matches] the
   indices given to [match_fn] so far.  [Panic] is [unreachable!()]. *)
Fixpoint run_match (es : regex) (bells : list (nat * bell)) (matches : list nat) : exec (bool * list nat) :=
  match es with
  | [] => Ret (match bells with [] => true | _ => false end, matches)
  | RBell exp_bell :: es' =>
      match bells with
      | (i, b) :: t => if b =? exp_bell then run_match es' t (matches ++ [i]) else Ret (false, matches)
      | [] => Ret (false, matches)
      end
  | RAny :: es' =>
      match bells with
      | [] => Ret (false, matches)
      | _ :: t => run_match es' t matches
      end
  | RGlob :: es' =>
      match es' with
      | [] => Ret (true, matches)
      | RBell exp_bell :: es'' =>
          match skip_to exp_bell bells with
          | Some (i, t) => run_match es'' t (matches ++ [i])
          | None => Ret (false, matches)
          end
      | _ => Panic
      end
  end.

(* music.rs 341-344 *)
Definition regex_matches (es : regex) (r : row) : exec bool :=
  '(is_match, _) <- run_match es (enumerate r) [];; Ret is_match.

(* music.rs 349-361 *)
Definition match_pattern (es : regex) (r : row) : exec (option (list nat)) :=
  '(is_match, matches) <- run_match es (enumerate r) [];;
  Ret (if is_match : bool then Some matches else None).
