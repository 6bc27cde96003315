(** Model of /repo/src/place_not.rs.  The [Display] texts of the error types (23-52, 384-396,
    408-419) are in [Format]. *)
From Verif Require Import Base Bell Stage Row Utils SameStageVec Block.
Local Open Scope list_scope.

(* place_not.rs 14-21 *)
Inductive pn_error :=
| PlaceOutOfStage (place : nat) (s : stage)
| AmbiguousPlacesBetween (p q : nat)
| DuplicatePlace (p : nat)
| OddStageCross (s : stage)
| NoPlacesGiven.

(* place_not.rs 54-76 *)
Record place_not := PlaceNot { pn_places : list nat; pn_stage : stage }.

(* place_not.rs 669-676 *)
Inductive char_meaning := CmBell (b : bell) | CmDelimiter | CmCross | CmAsym | CmUnknown.

(* place_not.rs 678-691 *)
Definition char_meaning_of (c : char) : char_meaning :=
  match bell_from_name c with
  | Some b => CmBell b
  | None =>
      if (c =? 43)%N (* + *) then CmAsym
      else if (c =? 32)%N (* space *) || (c =? 46)%N (* . *) then CmDelimiter
      else if (c =? 120)%N (* x *) || (c =? 88)%N (* X *) || (c =? 45)%N (* - *) then CmCross
      else CmUnknown
  end.

(* place_not.rs 109, 554 *)
Definition is_cm_cross (m : char_meaning) : bool := match m with CmCross => true | _ => false end.

(* place_not.rs 203-212 *)
Definition pn_cross (s : stage) : option place_not :=
  if s mod 2 =? 0 then Some (PlaceNot [] s) else None.

(** [sort_unstable] on integers: the result is determined, so any sorting algorithm will do. *)
(* place_not.rs 119, 536 *)
Fixpoint insert_sorted (x : nat) (l : list nat) : list nat :=
  match l with
  | [] => [x]
  | y :: t => if x <=? y then x :: l else y :: insert_sorted x t
  end.
(* place_not.rs 119, 536 *)
Definition sort_unstable (l : list nat) : list nat := fold_right insert_sorted [] l.

(* place_not.rs 153-169: the loop over [tuple_windows]; [places] is what has been pushed so far.
   [q - p] panics when the slice is not sorted. *)
Fixpoint fss_loop (places : list nat) (parsed : list nat) : exec (result (list nat) pn_error) :=
  match parsed with
  | p :: ((q :: _) as t) =>
      if q <? p then Panic
      else
        match q - p with
        | O => Ret (Err (DuplicatePlace p))
        | S num_intermediate_places =>
            if num_intermediate_places =? 1 then fss_loop (places ++ [p] ++ [p + 1]) t
            else if num_intermediate_places mod 2 =? 1
            then Ret (Err (AmbiguousPlacesBetween p q))
            else fss_loop (places ++ [p]) t
        end
  | _ => Ret (Ok places)
  end.

(* [slice::last], place_not.rs 137, 139, 173, 178, 243 *)
Definition last_place (l : list nat) : option nat :=
  match rev l with [] => None | x :: _ => Some x end.

(* place_not.rs 131-187 *)
Definition from_sorted_slice (parsed : list nat) (s : stage) : exec (result place_not pn_error) :=
  match last_place parsed with
  | None => Ret (Err NoPlacesGiven)
  | Some last =>
      if s <=? last then Ret (Err (PlaceOutOfStage last s))
      else
        let lead := match parsed with p :: _ => if p mod 2 =? 1 then [0] else [] | [] => [] end in
        middle <- fss_loop lead parsed;;
        match middle with
        | Err e => Ret (Err e)
        | Ok places =>
            let lie := if (s - last) mod 2 =? 0 then [s - 1] else [] in
            Ret (Ok (PlaceNot (places ++ [last] ++ lie) s))
        end
  end.

(* place_not.rs 107-123 *)
Definition pn_parse (t : str) (s : stage) : exec (result place_not pn_error) :=
  if (byte_len t =? 1) && match t with c :: _ => is_cm_cross (char_meaning_of c) | [] => false end
  then Ret (match pn_cross s with Some pn => Ok pn | None => Err (OddStageCross s) end)
  else from_sorted_slice (sort_unstable (filter_map bell_from_name t)) s.

(* place_not.rs 229-231 *)
Definition pn_is_cross (pn : place_not) : bool :=
  match pn_places pn with [] => true | _ => false end.

(* place_not.rs 235-237 *)
Definition pn_contains (pn : place_not) (place : nat) : bool :=
  existsb (Nat.eqb place) (pn_places pn).

(* place_not.rs 241-246; [num_bells() - 1] panics on stage 0 *)
Definition pn_has_internal_places (pn : place_not) : exec bool :=
  assert_ (1 <=? pn_stage pn);;;
  let has_lead := match pn_places pn with p :: _ => p =? 0 | [] => false end in
  let has_lie := match last_place (pn_places pn) with
                 | Some p => p =? pn_stage pn - 1
                 | None => false
                 end in
  let num_external_places := (if has_lead then 1 else 0) + (if has_lie then 1 else 0) in
  Ret (num_external_places <? length (pn_places pn)).

(* place_not.rs 261-276: the loop; [l] is what the enumerated pair iterator still has to yield *)
Fixpoint pnb_loop (l : list (nat * (bell * bell))) : option (list nat) :=
  match l with
  | [] => Some []
  | (place, (b1, b2)) :: t =>
      if b1 =? b2 then option_map (cons place) (pnb_loop t)
      else
        match t with
        | (place', (c1, c2)) :: t' =>
            if (place' =? place + 1) && (c1 =? b2) && (c2 =? b1) then pnb_loop t' else None
        | [] => None
        end
  end.

(* place_not.rs 256-282 *)
Definition pn_between (r1 r2 : row) : exec (option place_not) :=
  s1 <- row_stage r1;; s2 <- row_stage r2;;
  if negb (s1 =? s2) then Ret None
  else
    pairs <- zip_eq r1 r2;;
    match pnb_loop (enumerate pairs) with
    | None => Ret None
    | Some places => Ret (Some (PlaceNot places s1))
    end.

(* place_not.rs 312-324: the while loop; [i] grows in every iteration, so [fuel] larger than the
   stage is never used up *)
Fixpoint permute_loop (fuel : nat) (s : stage) (places : list nat) (i : nat) (r : row) : exec row :=
  match fuel with
  | O => NoFuel
  | S fuel' =>
      if i <? s then
        match places with
        | p :: places' =>
            if p =? i then permute_loop fuel' s places' (i + 1) r
            else r' <- row_swap r i (i + 1);; permute_loop fuel' s places (i + 2) r'
        | [] => r' <- row_swap r i (i + 1);; permute_loop fuel' s places (i + 2) r'
        end
      else Ret r
  end.

(* place_not.rs 309-325 *)
Definition permute_unchecked (pn : place_not) (r : row) : exec row :=
  permute_loop (S (pn_stage pn)) (pn_stage pn) (pn_places pn) 0 r.

(* place_not.rs 296-300 *)
Definition pn_permute (pn : place_not) (r : row) : exec (row * result unit incompatible_stages) :=
  s <- row_stage r;;
  match test_err s (pn_stage pn) with
  | Err e => Ret (r, Err e)
  | Ok _ => r' <- permute_unchecked pn r;; Ret (r', Ok tt)
  end.

(* place_not.rs 329-332, 341-345 *)
Definition pn_permute_new (pn : place_not) (r : row) : exec (result row incompatible_stages) :=
  s <- row_stage r;;
  match test_err s (pn_stage pn) with
  | Err e => Ret (Err e)
  | Ok _ => r' <- permute_unchecked pn r;; Ret (Ok r')
  end.

(* place_not.rs 285-292 *)
Definition pn_transposition (pn : place_not) : exec row :=
  permute_unchecked pn (row_rounds (pn_stage pn)).

(* place_not.rs 354-367 *)
Definition pn_display (pn : place_not) : str :=
  if pn_is_cross pn then s2l "-" else concat (map bell_name (pn_places pn)).

(** ** Blocks of place notation *)

(* place_not.rs 370-382; a [Range] is its two ends *)
Inductive pn_block_error :=
| PlusNotAtBlockStart (index : nat)
| PnError (start end_ : nat) (e : pn_error)
| EmptyBlock.

(* place_not.rs 402-405 *)
Inductive invalid_pn_block :=
| PbIncompatibleStages (index : nat) (e : incompatible_stages)
| PbEmptyBlock.

(* place_not.rs 424-431: a [PnBlock] is its list of place notations *)
Notation pn_block := (list place_not) (only parsing).

(** [str::char_indices]: the byte index of each char, starting from [i]. *)
(* place_not.rs 483 *)
Fixpoint char_indices_from (i : nat) (t : str) : list (nat * char) :=
  match t with
  | [] => []
  | c :: t' => (i, c) :: char_indices_from (i + utf8_len c) t'
  end.

(* place_not.rs 482-493: the tokens, with the fake delimiter at the end *)
Definition tok_indices (block : str) (byte_offset : nat) : list (nat * char_meaning) :=
  map (fun '(i, c) => (i + byte_offset, char_meaning_of c)) (char_indices_from 0 block)
  ++ [(byte_offset + byte_len block, CmDelimiter)].

(* place_not.rs 495-504 *)
Fixpoint skip_meaningless (toks : list (nat * char_meaning)) : list (nat * char_meaning) :=
  match toks with
  | (_, CmDelimiter) :: t | (_, CmUnknown) :: t => skip_meaningless t
  | _ => toks
  end.

(* place_not.rs 518-561: the loop over the tokens.  [places], [current_pn_start_index] and [buf] are
   the variables of the same name. *)
Fixpoint asym_loop (byte_offset : nat) (s : stage) (toks : list (nat * char_meaning))
  (places : list nat) (current_pn_start_index : nat) (buf : list place_not)
  : exec (result (list place_not) pn_block_error) :=
  match toks with
  | [] => Ret (Ok buf)
  | (i, m) :: t =>
      let index := i + byte_offset in
      match m with
      | CmBell b =>
          let start := match places with [] => index | _ => current_pn_start_index end in
          asym_loop byte_offset s t (places ++ [b]) start buf
      | CmAsym => Ret (Err (PlusNotAtBlockStart index))
      | CmUnknown => asym_loop byte_offset s t places current_pn_start_index buf
      | CmCross | CmDelimiter =>
          (* lines 534-549 *)
          flushed <- (match places with
                      | [] => Ret (Ok buf)
                      | _ :: _ =>
                          r <- from_sorted_slice (sort_unstable places) s;;
                          match r with
                          | Err e => Ret (Err (PnError current_pn_start_index (index + 1) e))
                          | Ok new_pn => Ret (Ok (buf ++ [new_pn]))
                          end
                      end);;
          match flushed with
          | Err e => Ret (Err e)
          | Ok buf' =>
              (* lines 557-563 *)
              if is_cm_cross m then
                match pn_cross s with
                | None => Ret (Err (PnError index (index + 1) (OddStageCross s)))
                | Some cross =>
                    asym_loop byte_offset s t [] current_pn_start_index (buf' ++ [cross])
                end
              else asym_loop byte_offset s t [] current_pn_start_index buf'
          end
      end
  end.

(* place_not.rs 471-564, with the debug assertion on line 479: whether the block is asymmetric, and
   the new contents of the buffer *)
Definition parse_asym_block (block : str) (byte_offset : nat) (s : stage) (buf : list place_not)
  : exec (result (bool * list place_not) pn_block_error) :=
  assert_ (match buf with [] => true | _ => false end);;;
  let toks := skip_meaningless (tok_indices block byte_offset) in
  let is_asymmetric := match toks with (_, CmAsym) :: _ => true | _ => false end in
  let toks' := if is_asymmetric then tl toks else toks in
  r <- asym_loop byte_offset s toks' [] 0 buf;;
  match r with
  | Err e => Ret (Err e)
  | Ok buf' => Ret (Ok (is_asymmetric, buf'))
  end.

(** [s.split(',')], each piece with its byte offset within [s] (44 is the comma). *)
(* place_not.rs 445 *)
Fixpoint split_comma_from (offset : nat) (cur : str) (t : str) : list (nat * str) :=
  match t with
  | [] => [(offset, cur)]
  | c :: t' =>
      if (c =? 44)%N
      then (offset, cur) :: split_comma_from (offset + byte_len cur + utf8_len c) [] t'
      else split_comma_from offset (cur ++ [c]) t'
  end.
(* place_not.rs 445 *)
Definition split_comma (t : str) : list (nat * str) := split_comma_from 0 [] t.

(* place_not.rs 445-462: the loop over the pieces; [append] and [drain] leave the buffer empty *)
Fixpoint pnb_parse_loop (is_single_block : bool) (s : stage) (pieces : list (nat * str))
  (pns sym_block_buf : list place_not) : exec (result (list place_not) pn_block_error) :=
  match pieces with
  | [] => Ret (Ok pns)
  | (byte_offset, sym_block) :: t =>
      r <- parse_asym_block sym_block byte_offset s sym_block_buf;;
      match r with
      | Err e => Ret (Err e)
      | Ok (is_asymmetric, buf) =>
          if is_single_block || is_asymmetric
          then pnb_parse_loop is_single_block s t (pns ++ buf) []
          else pnb_parse_loop is_single_block s t (pns ++ buf ++ skipn 1 (rev buf)) []
      end
  end.

(* place_not.rs 437-469 *)
Definition pn_block_parse (t : str) (s : stage) : exec (result pn_block pn_block_error) :=
  let is_single_block := negb (existsb (fun c => (c =? 44)%N) t) in
  r <- pnb_parse_loop is_single_block s (split_comma t) [] [];;
  match r with
  | Err e => Ret (Err e)
  | Ok [] => Ret (Err EmptyBlock)
  | Ok pns => Ret (Ok pns)
  end.

(* place_not.rs 586-589: the loop over the later place notations *)
Fixpoint pnb_check_stages (first_stage : stage) (i : nat) (pns : list place_not)
  : result unit invalid_pn_block :=
  match pns with
  | [] => Ok tt
  | pn :: t =>
      match test_err first_stage (pn_stage pn) with
      | Err e => Err (PbIncompatibleStages i e)
      | Ok _ => pnb_check_stages first_stage (S i) t
      end
  end.

(* place_not.rs 582-592 (and [from_iter], 572-577) *)
Definition pn_block_from_vec (pns : list place_not) : result pn_block invalid_pn_block :=
  match pns with
  | [] => Err PbEmptyBlock
  | first :: rest =>
      match pnb_check_stages (pn_stage first) 1 rest with
      | Err e => Err e
      | Ok _ => Ok pns
      end
  end.

(* place_not.rs 614-618 *)
Definition pn_block_stage (pns : pn_block) : exec stage := pn <- idx pns 0;; Ret (pn_stage pn).

(* place_not.rs 623-625 *)
Definition pn_block_len (pns : pn_block) : nat := length pns.

(* place_not.rs 635-643: the loop *)
Fixpoint to_rows_loop (rows : ssv) (current_row : row) (pns : list place_not) : exec ssv :=
  match pns with
  | [] => Ret rows
  | pn :: t =>
      current_row' <- permute_unchecked pn current_row;;
      '(rows', res) <- ssv_push rows current_row';;
      unwrap_res res;;;
      to_rows_loop rows' current_row' t
  end.

(* place_not.rs 630-645 *)
Definition pn_block_to_rows (pns : pn_block) (start_row : row)
  : exec (result ssv incompatible_stages) :=
  s <- row_stage start_row;; bs <- pn_block_stage pns;;
  match test_err s bs with
  | Err e => Ret (Err e)
  | Ok _ =>
      rows <- ssv_from_row_buf start_row;;
      rows' <- to_rows_loop rows start_row pns;;
      Ret (Ok rows')
  end.

(* place_not.rs 649-655 *)
Definition pn_block_to_block {A} (default : A) (pns : pn_block) (start_row : row)
  : exec (result (block A) incompatible_stages) :=
  r <- pn_block_to_rows pns start_row;;
  match r with
  | Err e => Ret (Err e)
  | Ok rows => b <- with_default_annots default rows;; Ret (Ok b)
  end.

(* place_not.rs 659-666 *)
Definition pn_block_to_block_from_rounds {A} (default : A) (pns : pn_block) : exec (block A) :=
  s <- pn_block_stage pns;;
  r <- pn_block_to_block default pns (row_rounds s);;
  unwrap_res r.
