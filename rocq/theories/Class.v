(** Model of /repo/src/method/class.rs. *)
From Verif Require Import Base Bell Stage Row Utils SameStageVec Block PlaceNot.
Local Open Scope list_scope.

(* class.rs 125-136: the derived [Ord] is the order of declaration, see [hbc_rank] *)
Inductive hunt_bell_class := HPlain | HTrebleDodging | HTreblePlace | HAlliance | HHybrid.

(* class.rs 138-168 *)
Inductive class :=
| Principle | Place | Bob | TrebleBob | Delight | Surprise | TreblePlace | Alliance | Hybrid.

(* class.rs 16-22 *)
Record full_class := FullClass
  { is_jump : bool; is_little : bool; is_differential : bool; fc_class : class }.

(** ** [Class] *)

(* class.rs 173-175 *)
Definition is_plain (c : class) : bool := match c with Place | Bob => true | _ => false end.

(* class.rs 180-182 *)
Definition is_treble_dodging (c : class) : bool :=
  match c with TrebleBob | Delight | Surprise => true | _ => false end.

(* class.rs 187-191 *)
Definition is_symmetric_hunter (c : class) : bool :=
  is_plain c || is_treble_dodging c || match c with TreblePlace | Alliance => true | _ => false end.

(* class.rs 194-204 *)
Definition class_hunt_bell_class (c : class) : option hunt_bell_class :=
  match c with
  | Bob | Place => Some HPlain
  | TrebleBob | Delight | Surprise => Some HTrebleDodging
  | TreblePlace => Some HTreblePlace
  | Alliance => Some HAlliance
  | Hybrid => Some HHybrid
  | Principle => None
  end.

(* class.rs 208-223 *)
Definition name_in_title (c : class) : option str :=
  match c with
  | Principle => None
  | Place => Some (s2l "Place")
  | Bob => Some (s2l "Bob")
  | TrebleBob => Some (s2l "Treble Bob")
  | Delight => Some (s2l "Delight")
  | Surprise => Some (s2l "Surprise")
  | TreblePlace => Some (s2l "Treble Place")
  | Alliance => Some (s2l "Alliance")
  | Hybrid => None
  end.

(* class.rs 227-242, 245-250 *)
Definition class_name (c : class) : str :=
  match c with
  | Principle => s2l "Principle"
  | Place => s2l "Place"
  | Bob => s2l "Bob"
  | TrebleBob => s2l "Treble Bob"
  | Delight => s2l "Delight"
  | Surprise => s2l "Surprise"
  | TreblePlace => s2l "Treble Place"
  | Alliance => s2l "Alliance"
  | Hybrid => s2l "Hybrid"
  end.

(* class.rs 73-82, 84-114: one [add_space!()] and the [write!] which follows it; the state is the
   text written so far (by this call) and [is_first_segment].  Writing to a [String] cannot fail. *)
Definition add_segment (st : str * bool) (word : str) : str * bool :=
  let (f, is_first_segment) := st in
  ((if is_first_segment then f else f ++ s2l " ") ++ word, false).

(* class.rs 65-116 *)
Definition fmt_name (c : full_class) (is_for_title : bool) : str :=
  let st := ([], true) in
  let st := if is_jump c then add_segment st (s2l "Jump") else st in
  let st := if is_differential c then add_segment st (s2l "Differential") else st in
  let st :=
    if is_for_title then
      match name_in_title (fc_class c) with
      | Some name =>
          let st := if is_little c then add_segment st (s2l "Little") else st in
          add_segment st name
      | None => st
      end
    else
      let st := if is_little c then add_segment st (s2l "Little") else st in
      add_segment st (class_name (fc_class c)) in
  fst st.

(* class.rs 119-123 *)
Definition full_class_display (c : full_class) : str := fmt_name c false.

(** ** Cycles *)

(* class.rs 498-502 *)
Record cycle := Cycle { place_bells : list bell; full_path : list nat }.

(** The result of the body of the outer loop. *)
(* class.rs 516-534 *)
Definition loop_out := (list bool * list bell * list nat)%type.

Section Cycles.
Context {A : Type}.

(* class.rs 521-534, the inner [loop]; the state is [bells_left], [place_bells_in_cycle] and
   [full_path] *)
Fixpoint follow_cycle (fuel : nat) (first_lead : block A) (starting_bell place_bell : bell)
    (bells_left : list bool) (place_bells_in_cycle : list bell) (path_so_far : list nat)
  : exec loop_out :=
  match fuel with
  | O => NoFuel
  | S fuel' =>
      bells_left' <- set_idx bells_left place_bell false;;
      p <- block_path_of first_lead place_bell;;
      '(path, next_place_bell) <- unwrap p;;
      let pbs := place_bells_in_cycle ++ [place_bell] in
      let fp := path_so_far ++ path in
      if next_place_bell =? starting_bell then Ret (bells_left', pbs, fp)
      else follow_cycle fuel' first_lead starting_bell next_place_bell bells_left' pbs fp
  end.

(* class.rs 514-539, the outer [while let] *)
Fixpoint cycles_loop (fuel : nat) (first_lead : block A) (bells_left : list bool)
    (cycles : list cycle) : exec (list cycle) :=
  match fuel with
  | O => NoFuel
  | S fuel' =>
      match position (fun v => v) bells_left with
      | None => Ret cycles
      | Some starting_bell =>
          '(bells_left', pbs, fp) <-
            follow_cycle (S (length bells_left)) first_lead starting_bell starting_bell
              bells_left [] [];;
          cycles_loop fuel' first_lead bells_left' (cycles ++ [Cycle pbs fp])
      end
  end.

(* class.rs 506-542 *)
Definition cycles_from_lead (first_lead : block A) : exec (list cycle) :=
  first <- unwrap (block_first_annot_row first_lead);;
  assert_ (is_rounds (fst first));;;
  let n := block_stage first_lead in
  cycles_loop (S n) first_lead (repeat true n) [].
End Cycles.

(* class.rs 544-546 *)
Definition cycle_is_hunt (c : cycle) : bool := length (place_bells c) =? 1.

(* class.rs 549-554 *)
Definition as_hunt_bell (c : cycle) : option bell :=
  match place_bells c with
  | [b] => Some b
  | _ => None
  end.

(* class.rs 556-558 *)
Definition num_leads (c : cycle) : nat := length (place_bells c).

(* class.rs 561-574 *)
Definition partition_cycles (cycles : list cycle) : list cycle * list cycle :=
  fold_left
    (fun '(hunt_cycles, working_cycles) c =>
       if cycle_is_hunt c then (hunt_cycles ++ [c], working_cycles)
       else (hunt_cycles, working_cycles ++ [c]))
    cycles ([], []).

(** ** Classification *)

(** [Itertools::tuple_windows] for pairs. *)
(* class.rs 267, 389 *)
Fixpoint windows2 {A} (l : list A) : list (A * A) :=
  match l with
  | a :: ((b :: _) as t) => (a, b) :: windows2 t
  | _ => []
  end.

(** [Itertools::tuple_windows] for triples. *)
(* class.rs 267, 466 *)
Fixpoint windows3 {A} (l : list A) : list (A * A * A) :=
  match l with
  | a :: ((b :: c :: _) as t) => (a, b, c) :: windows3 t
  | _ => []
  end.

(** [Itertools::circular_tuple_windows] for pairs and triples: as many windows as elements, over
    the elements repeated for ever. *)
(* class.rs 382, 429 *)
Definition circular_windows2 {A} (l : list A) : list (A * A) :=
  firstn (length l) (windows2 (l ++ l ++ l)).
(* class.rs 466 *)
Definition circular_windows3 {A} (l : list A) : list (A * A * A) :=
  firstn (length l) (windows3 (l ++ l ++ l)).

(** [Itertools::positions]. *)
(* class.rs 430, method/mod.rs 194 *)
Definition positions {A} (p : A -> bool) (l : list A) : list nat :=
  map fst (filter (fun '(_, x) => p x) (enumerate l)).

(* class.rs 481-495; [rev().cycle().skip(i)], cut off after as many elements as [zip] can use *)
Definition is_palindromic (path : list nat) : bool :=
  existsb
    (fun i => list_eqb (firstn (length path) (skipn i (rev path ++ rev path))) path)
    (range 0 (length path)).

(** [Ord::cmp] of [HuntBellClass]. *)
(* derived [Ord], class.rs 128-137 *)
Definition hbc_rank (c : hunt_bell_class) : nat :=
  match c with
  | HPlain => 0 | HTrebleDodging => 1 | HTreblePlace => 2 | HAlliance => 3 | HHybrid => 4
  end.
(* derived [Ord], class.rs 128-137 *)
Definition hbc_cmp (a b : hunt_bell_class) : comparison := Nat.compare (hbc_rank a) (hbc_rank b).

(* class.rs 348-351 *)
Definition count_places (s : stage) (path : list nat) : exec (list nat) :=
  foldM (fun counts p => n <- idx counts p;; set_idx counts p (n + 1)) path (repeat 0 s).

(* class.rs 345-416 *)
Definition classify_hunt_cycle (c : cycle) (s : stage) : exec (bool * hunt_bell_class) :=
  num_rows_in_each_place <- count_places s (full_path c);;
  let is_little := existsb (fun n => n =? 0) num_rows_in_each_place in
  let is_stationary := length (filter (fun v => 0 <? v) num_rows_in_each_place) =? 1 in
  let are_places_visited_exactly_twice :=
    forallb (fun n => (n =? 0) || (n =? 2)) num_rows_in_each_place in
  if is_stationary then Ret (is_little, HTreblePlace)
  else if are_places_visited_exactly_twice then Ret (is_little, HPlain)
  else
    let is_path_palindromic := is_palindromic (full_path c) in
    let num_places_made :=
      length (filter (fun '(a, b) => a =? b) (circular_windows2 (full_path c))) in
    let are_all_places_equally_covered :=
      forallb (fun '(a, b) => a =? b)
        (windows2 (filter (fun v => negb (v =? 0)) num_rows_in_each_place)) in
    let class_ :=
      match is_path_palindromic, are_all_places_equally_covered, Nat.compare num_places_made 2 with
      | true, true, Gt => HTreblePlace
      | true, true, Eq => HTrebleDodging
      | true, true, Lt => HHybrid
      | true, false, _ => HAlliance
      | false, _, _ => HHybrid
      end in
    Ret (is_little, class_).

(** [iter.min()]. *)
(* class.rs 423 *)
Definition list_min (l : list nat) : option nat :=
  match l with [] => None | x :: t => Some (fold_left Nat.min t x) end.

(** [a - b] on [usize]. *)
(* class.rs 430 *)
Definition usub (a b : nat) : exec nat := if b <=? a then Ret (a - b) else Panic.

(* class.rs 422-432: what one hunt bell adds to [cross_indices]; the subtractions cannot underflow
   but are checked here all the same *)
Definition cross_indices_of (c : cycle) : exec (list nat) :=
  min_place <- unwrap (list_min (full_path c));;
  marks <- mapM (fun '(a, b) =>
             a' <- usub a min_place;; b' <- usub b min_place;;
             Ret (negb (a' / 2 =? b' / 2)))
           (circular_windows2 (full_path c));;
  Ret (positions (fun m => m) marks).

Section Classify.
Context {A : Type}.

(** The order in which a hash set with these elements (listed as they were inserted) is iterated
    over: any listing without repetition, see the theorems about [classify]. *)
Context (hash_order : list nat -> list nat).

(* class.rs 434-446 *)
Fixpoint cross_loop (first_lead : block A) (cross_indices : list nat)
    (all_internal_places all_no_internal_places : bool) : exec (bool * bool) :=
  match cross_indices with
  | [] => Ret (all_internal_places, all_no_internal_places)
  | i :: t =>
      r1 <- unwrap (block_get_row first_lead i);;
      r2 <- unwrap (block_get_row first_lead (i + 1));;
      between <- pn_between r1 r2;;
      pn <- unwrap between;;
      has_internal_places <- pn_has_internal_places pn;;
      if has_internal_places then cross_loop first_lead t all_internal_places false
      else cross_loop first_lead t false all_no_internal_places
  end.

(* class.rs 419-456 *)
Definition sub_classify_treble_dodging (first_lead : block A) (hunt_cycles : list cycle)
  : exec class :=
  inserted <- mapM cross_indices_of hunt_cycles;;
  '(all_internal, all_no_internal) <- cross_loop first_lead (hash_order (concat inserted)) true true;;
  Ret (match all_internal, all_no_internal with
       | false, true => TrebleBob
       | false, false => Delight
       | true, false => Surprise
       | true, true => TrebleBob
       end).

(* class.rs 459-474 *)
Definition sub_classify_plain (working_bell_cycles : list cycle) : class :=
  if existsb
       (fun c => existsb (fun '(a, b, c) => (a =? c) && ((b + 1 =? a) || (b =? a + 1)))
                   (circular_windows3 (full_path c)))
       working_bell_cycles
  then Bob else Place.

(* class.rs 285-307: the loop over the remaining hunt cycles *)
Fixpoint best_loop (s : stage) (cycles : list cycle) (best_is_little : bool)
    (best : hunt_bell_class) (in_best : list cycle)
  : exec (bool * hunt_bell_class * list cycle) :=
  match cycles with
  | [] => Ret (best_is_little, best, in_best)
  | c :: t =>
      '(little, cl) <- classify_hunt_cycle c s;;
      match hbc_cmp cl best with
      | Lt => best_loop s t little cl [c]
      | Eq => best_loop s t (best_is_little && little) best (in_best ++ [c])
      | Gt => best_loop s t best_is_little best in_best
      end
  end.

(* class.rs 257-342 (and 35-37) *)
Definition classify (first_lead : block A) : exec full_class :=
  let s := block_stage first_lead in
  cycles <- cycles_from_lead first_lead;;
  let (hunt_cycles, working_cycles) := partition_cycles cycles in
  let all_working_cycles_equal_length :=
    forallb (fun '(set1, set2) => num_leads set1 =? num_leads set2) (windows2 working_cycles) in
  let differential := negb all_working_cycles_equal_length in
  match hunt_cycles with
  | [] => Ret (FullClass false false differential Principle)
  | h :: rest =>
      '(little, cl) <- classify_hunt_cycle h s;;
      '(best_is_little, best, in_best) <- best_loop s rest little cl [h];;
      hunt_bells_in_best <- mapM (fun c => unwrap (as_hunt_bell c)) in_best;;
      class_ <-
        match best with
        | HPlain =>
            marked <- mapM (fun c => b <- unwrap (as_hunt_bell c);;
                        Ret (negb (existsb (fun x => x =? b) hunt_bells_in_best), c)) hunt_cycles;;
            Ret (sub_classify_plain (working_cycles ++ map snd (filter fst marked)))
        | HTrebleDodging => sub_classify_treble_dodging first_lead in_best
        | HTreblePlace => Ret TreblePlace
        | HAlliance => Ret Alliance
        | HHybrid => Ret Hybrid
        end;;
      Ret (FullClass false best_is_little differential class_)
  end.
End Classify.
