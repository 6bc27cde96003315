(** The literals of the unit tests and documentation examples of /repo, run on the model.  These are
    tests of the model against the behaviour the repository's authors recorded, not proofs of
    properties: they tie the model to the code.  Each example cites the lines it copies. *)
From Verif Require Import Base Bell Stage Parity Row Utils SameStageVec Block PlaceNot Music Mask Class Format.
Local Open Scope string_scope.
Local Open Scope list_scope.

(** [RowBuf::parse(..).unwrap()] and other unwraps; wrong results show as the empty list. *)
Definition row_of (t : string) : row := match row_parse (s2l t) with Ok r => r | Err _ => [] end.
Definition unwrap_row {E} (r : exec (result row E)) : row := match r with Ret (Ok r) => r | _ => [] end.
Definition unwrap_exec {A} (d : A) (r : exec A) : A := match r with Ret a => a | _ => d end.
Definition bell_of (t : string) : bell :=
  match s2l t with [c] => match bell_from_name c with Some b => b | None => 99 end | _ => 99 end.
Definition pn_of (t : string) (s : stage) : place_not :=
  match pn_parse (s2l t) s with Ret (Ok pn) => pn | _ => PlaceNot [] 0 end.
Definition regex_of (t : string) : regex := unwrap_exec [] (regex_parse (s2l t)).
Definition mask_of (t : string) : mask := mask_parse (s2l t).

(** ** bell.rs *)

(* bell.rs 42-52 *)
Example bell_from_name_doc :
  map (fun t => option_map bell_name (bell_from_name t)) [49; 53; 48; 84; 101; 116; 13; 129408]%N
  = [Some (s2l "1"); Some (s2l "5"); Some (s2l "0"); Some (s2l "T"); None; None; None; None].
Proof. vm_compute. reflexivity. Qed.

(* bell.rs 71-73, 89-91, 109-111, 215-224 *)
Example bell_numbers_doc :
  bell_name 0 = s2l "1" /\ bell_name 11 = s2l "T" /\
  option_map bell_name (bell_from_number 12) = Some (s2l "T") /\ bell_from_number 0 = None /\
  bell_tenor 5 = Ret 4 /\ bell_from_number 5 = Some 4 /\ bell_tenor 12 = Ret 11 /\ bell_from_number 12 = Some 11 /\
  map (fun n => option_map bell_name (bell_from_number n)) [1; 5; 9; 10; 12; 16; 100]
  = map (fun t => Some (s2l t)) ["1"; "5"; "9"; "0"; "T"; "D"; "<100>"].
Proof. vm_compute. repeat split. Qed.

(* bell.rs 129-134, 147-152, 191-195 *)
Example bell_chars_doc :
  bell_from_name 49 = Some TREBLE /\ bell_number TREBLE = 1 /\ bell_name TREBLE = s2l "1" /\
  bell_to_char 0 = Some 49%N /\ option_map bell_to_char (bell_from_number 11) = Some (Some 69%N) /\
  option_map bell_to_char (bell_from_number 100) = Some None /\
  map (fun n => option_map bell_number (bell_from_number n)) [4; 10] = [Some 4; Some 10].
Proof. vm_compute. repeat split. Qed.

(* bell.rs 164-178 *)
Example bell_index_doc :
  map (fun c => bell_from_name c) [56; 48; 84]%N = [Some 7; Some 9; Some 11].
Proof. vm_compute. reflexivity. Qed.

(** ** stage.rs *)

(* stage.rs 65-85, 183-191; the constants are named by the texts they are displayed as *)
Example stage_constants_doc :
  map stage_display [4; 5; 6; 7; 12; 14; 15]
  = map s2l ["Minimus"; "Doubles"; "Minor"; "Triples"; "Maximus"; "Fourteen"; "Septuples"] /\
  map stage_new [4; 6; 7; 14; 15] = map Ret [4; 6; 7; 14; 15].
Proof. vm_compute. repeat split. Qed.

(* stage.rs 30-45 *)
Example stage_doc :
  stage_new 3 = Ret 3 /\ stage_new 254 = Ret 254 /\ stage_new 0 = Panic /\
  map stage_display [12; 9; 50] = map s2l ["Maximus"; "Caters"; "50 bells"].
Proof. vm_compute. repeat split. Qed.

(** ** parity.rs *)

(* parity.rs 88-110 *)
Example parity_tests :
  parity_mul Even Even = Even /\ parity_mul Even Odd = Odd /\ parity_mul Odd Even = Odd /\ parity_mul Odd Odd = Even /\
  map parity_from_number [0; 1000; 1; 47] = [Even; Even; Odd; Odd] /\
  map (fun r => match row_parity 100 r with Ret (_, p) => Some p | _ => None end)
    [row_rounds 2; row_rounds 8; row_of "13245"; row_of "231546"; row_of "231564"]
  = [Some Even; Some Even; Some Odd; Some Odd; Some Even].
Proof. vm_compute. repeat split. Qed.

(** ** row/owned.rs *)

(* owned.rs 36-57, 68-89; the tab is character 9 *)
Example row_parse_doc :
  row_display (row_of "12543") = s2l "12543" /\
  match row_parse (s2l "4321" ++ [9%N] ++ s2l "[65 78]") with Ok r => row_display r = s2l "43216578" | _ => False end /\
  row_display (row_of "3|2|1  6|5|4  9|8|7") = s2l "321654987" /\
  row_parse (s2l "112345") = Err (DuplicateBell 0) /\
  row_parse (s2l "12745") = Err (BellOutOfStage 6 5).
Proof. vm_compute. repeat split. Qed.

(* owned.rs 97-132 *)
Example row_ctors_doc :
  map row_display [row_rounds 4; row_rounds 9; row_backrounds 4; row_backrounds 9; row_queens 4; row_queens 9]
  = map s2l ["1234"; "123456789"; "4321"; "987654321"; "1324"; "135792468"].
Proof. vm_compute. reflexivity. Qed.

(* owned.rs 151-175, 254-273, 287-299 *)
Example row_from_vec_doc :
  from_vec [3; 1; 0; 2] = Ok (row_of "4213") /\ from_vec [3; 1; 0; 3] = Err (DuplicateBell 3) /\
  from_bell_iter [0; 3; 4; 2; 1] = Ok (row_of "14532") /\
  from_bell_iter [0; 3; 7; 2; 1] = Err (BellOutOfStage 7 5) /\
  row_display [0; 3; 7; 2; 1] = s2l "14832".
Proof. vm_compute. repeat split. Qed.

(* owned.rs 211-244: the unchecked constructor keeps whatever it is given *)
Example row_from_vec_unchecked_doc :
  map row_display [[3; 1; 0; 2]; [3; 1; 0; 3]] = map s2l ["4213"; "4214"].
Proof. vm_compute. reflexivity. Qed.

(* owned.rs 517-531 *)
Example parse_with_stage_ok :
  map (fun '(t, s) => row_parse_with_stage (s2l t) s)
    [("321", 3); ("321", 6); ("1342", 8); ("123564", 10); ("21", 5); ("", 4)]
  = map (fun t => Ret (Ok (row_of t))) ["321"; "321456"; "13425678"; "1235647890"; "21345"; "1234"].
Proof. vm_compute. reflexivity. Qed.

(* owned.rs 534-581 *)
Example parse_with_stage_errs :
  map (fun '(t, s) => row_parse_with_stage (s2l t) s) [("322", 3); ("11", 12); ("512435", 6); ("331212", 6)]
  = map (fun b => Ret (Err (DuplicateBell (bell_of b)))) ["2"; "1"; "5"; "3"] /\
  map (fun '(t, s) => row_parse_with_stage (s2l t) s) [("0", 3); ("3218", 6); ("12345678", 3)]
  = map (fun '(b, s) => Ret (Err (BellOutOfStage (bell_of b) s))) [("0", 3); ("8", 6); ("4", 3)] /\
  map (fun '(t, s) => row_parse_with_stage (s2l t) s) [("13", 3); ("14", 6); ("14567892", 9)]
  = map (fun b => Ret (Err (MissingBell (bell_of b)))) ["2"; "2"; "3"].
Proof. vm_compute. repeat split. Qed.

(* owned.rs 584-608, 611-623; duplicates are dropped by collecting into a set *)
Definition row_set (ts : list string) : list row :=
  fold_left (fun acc r => if row_mem r acc then acc else acc ++ [r]) (map row_of ts) [].
Example is_group_tests :
  map (fun ts => is_group_set (row_set ts))
   [["1234"; "1342"; "1423"]; ["1"]; ["1234"; "1324"]; ["1234"; "1234"; "1234"; "1324"];
    ["1234"; "4123"; "3412"; "2341"];
    ["123456"; "134256"; "142356"; "132456"; "124356"; "143256"];
    ["123456"; "134562"; "145623"; "156234"; "162345"; "165432"; "126543"; "132654"; "143265"; "154326"];
    ["123456"; "234561"; "345612"; "456123"; "561234"; "612345"];
    ["123456"; "234561"; "345612"; "456123"; "561234"; "612345"; "654321"; "165432"; "216543"; "321654"; "432165"; "543216"]]
  = repeat (Ret (Ok true)) 9 /\
  map (fun ts => is_group_set (row_set ts))
   [["21"]; ["123456"; "134256"; "142356"; "132456"; "124356"]; [];
    ["123456"; "134256"; "142356"; "132456"; "124356"; "143256"; "213456"]]
  = repeat (Ret (Ok false)) 4.
Proof. vm_compute. repeat split. Qed.

(** ** row/borrowed.rs *)

(* borrowed.rs 33-57, 71-81, 97-103, 113-125 *)
Example row_doc :
  row_stage (row_rounds 8) = Ret 8 /\ row_display (row_of "13579 | 24680") = s2l "1357924680" /\
  row_stage (row_of "13579 | 24680") = Ret 10 /\ row_stage (row_of "41325") = Ret 5 /\
  row_stage (row_of "321 654 987 0") = Ret 10 /\ nth_error (row_of "15263748") 3 = Some (bell_of "6") /\
  place_of (row_of "15263748") (bell_of "1") = Some 0 /\ place_of (row_of "15263748") (bell_of "5") = Some 1.
Proof. vm_compute. repeat split. Qed.

(* borrowed.rs 166-191, 206-216 *)
Example row_predicates_doc :
  is_rounds (row_rounds 12) = true /\ is_rounds (row_of "18423756") = false /\
  is_backrounds (row_backrounds 12) = true /\ is_backrounds (row_of "18423756") = false /\
  effective_stage (row_of "14237568") = Ret 7 /\ effective_stage (row_of "18423756") = Ret 8 /\
  effective_stage (row_rounds 12) = Ret 1.
Proof. vm_compute. repeat split. Qed.

(* borrowed.rs 234-243 *)
Example row_swap_doc :
  row_swap (row_rounds 8) 0 1 = Ret (row_of "21345678") /\ row_swap (row_of "21345678") 2 5 = Ret (row_of "21645378").
Proof. vm_compute. repeat split. Qed.

(* borrowed.rs 256-274, 292-311, 909-927; the other three implementations of [Mul] (939-957,
   970-988, 1001-1019) repeat the last two lines *)
Example row_mul_doc :
  mul_result (row_of "13425678") (row_of "43217568") = Ret (Ok (row_of "24317568")) /\
  match mul_result (row_of "13425678") (row_of "4321") with
  | Ret (Err e) => incompatible_stages_display e = s2l "Incompatible stages: Major (lhs), Minimus (rhs)"
  | _ => False
  end /\
  mul_unchecked (row_of "13425678") (row_of "43217568") = Ret (row_of "24317568") /\
  mul_unchecked (row_of "13475628") (row_of "4321") = Ret [6; 3; 2; 0] /\
  row_mul (row_of "13425678") (row_of "43217568") = Ret (row_of "24317568") /\
  row_mul (row_of "13425678") (row_of "4321") = Panic.
Proof. vm_compute. repeat split. Qed.

(* borrowed.rs 375-386, 402-421, 438-454; [Not] (861-872, 886-897) repeats the first three lines *)
Example row_inv_doc :
  row_inv (row_of "135246") = Ret (row_of "142536") /\ row_inv (row_backrounds 8) = Ret (row_backrounds 8) /\
  row_inv (row_of "1342") = Ret (row_of "1423") /\
  inv_into (row_of "135246") (row_rounds 6) = Ret (row_of "142536", Ok tt) /\
  inv_into (row_backrounds 8) (row_rounds 8) = Ret (row_backrounds 8, Ok tt) /\
  inv_into (row_of "1342") (row_rounds 4) = Ret (row_of "1423", Ok tt) /\
  inv_into_buf (row_of "135246") (row_rounds 1) = Ret (row_of "142536") /\
  inv_into_buf (row_backrounds 8) (row_of "142536") = Ret (row_backrounds 8) /\
  inv_into_buf (row_of "1342") (row_backrounds 8) = Ret (row_of "1423").
Proof. vm_compute. repeat split. Qed.

(* borrowed.rs 579-596, 617-635 *)
Example closure_doc :
  closure 100 (row_of "18234567") =
    Ret (map row_of ["18234567"; "17823456"; "16782345"; "15678234"; "14567823"; "13456782"; "12345678"]) /\
  closure_from_rounds 100 (row_of "18234567") =
    Ret (map row_of ["12345678"; "18234567"; "17823456"; "16782345"; "15678234"; "14567823"; "13456782"]).
Proof. vm_compute. repeat split. Qed.

(** ** utils.rs *)

(* utils.rs 86-90 *)
Example run_len_test : map (fun t => run_len (row_of t)) ["123456"; "456231"; "612345"] = [6; 3; 1].
Proof. vm_compute. reflexivity. Qed.

(** ** row/same_stage_vec.rs *)

(* same_stage_vec.rs 28-41 *)
Example ssv_doc :
  exists v1 v2 v3, ssv_push (ssv_new 6) (row_rounds 6) = Ret (v1, Ok tt) /\ ssv_push v1 (row_queens 6) = Ret (v2, Ok tt) /\
    ssv_push v2 (row_backrounds 6) = Ret (v3, Ok tt) /\ ssv_len v3 = Ret 3 /\
    match ssv_index v3 2 with Ret r => is_backrounds r = true | _ => False end.
Proof. do 3 eexists. repeat split. Qed.

(** ** place_not.rs *)

(* place_not.rs 86-106, 193-202, 217-227 *)
Example pn_doc :
  pn_display (pn_of "14" 8) = s2l "14" /\ pn_display (pn_of "  4|7~18" 10) = s2l "1478" /\
  pn_display (pn_of "467" 12) = s2l "14567T" /\
  match pn_parse (s2l "14T") 8 with Ret (Err e) => pn_error_display e = Ret (s2l "Place 'T' is out stage Major") | _ => False end /\
  match pn_parse (s2l "15") 8 with
  | Ret (Err e) => pn_error_display e = Ret (s2l "Ambiguous gap of 3 bells between places '1' and '5'.")
  | _ => False
  end /\
  pn_cross 8 = Some (pn_of "x" 8) /\ option_map pn_is_cross (pn_cross 8) = Some true /\ pn_is_cross (pn_of "x" 8) = true /\
  pn_is_cross (pn_of "14" 8) = false /\ pn_is_cross (pn_of "3" 7) = false.
Proof. vm_compute. repeat split. Qed.

(* place_not.rs 699-741 *)
Example parse_ok :
  map (fun '(t, s, _) => pn_parse (s2l t) s)
    [("14", 8, [0; 3]); ("1256", 6, [0; 1; 4; 5]); ("16", 12, [0; 5]); ("127", 7, [0; 1; 6]); ("3", 9, [2]);
     ("4", 4, [0; 3]); ("234", 6, [0; 1; 2; 3]); ("478", 8, [0; 3; 6; 7]); ("470", 10, [0; 3; 6; 9]); ("2", 2, [0; 1]);
     ("3", 8, [2; 7]); ("12", 5, [0; 1; 4]); ("1", 2, [0; 1]); ("14", 11, [0; 3; 10]);
     ("146", 8, [0; 3; 4; 5]); ("13", 3, [0; 1; 2]); ("13", 7, [0; 1; 2]); ("135", 7, [0; 1; 2; 3; 4]);
     ("23", 8, [0; 1; 2; 7]); ("4", 7, [0; 3; 6]); ("45", 6, [0; 3; 4; 5]); ("46", 9, [0; 3; 4; 5; 8]);
     ("6152", 6, [0; 1; 4; 5]); ("342", 6, [0; 1; 2; 3]); ("32", 8, [0; 1; 2; 7]); ("21", 5, [0; 1; 4])]
  = map (fun '(_, s, ps) => Ret (Ok (PlaceNot ps s)))
    [("14", 8, [0; 3]); ("1256", 6, [0; 1; 4; 5]); ("16", 12, [0; 5]); ("127", 7, [0; 1; 6]); ("3", 9, [2]);
     ("4", 4, [0; 3]); ("234", 6, [0; 1; 2; 3]); ("478", 8, [0; 3; 6; 7]); ("470", 10, [0; 3; 6; 9]); ("2", 2, [0; 1]);
     ("3", 8, [2; 7]); ("12", 5, [0; 1; 4]); ("1", 2, [0; 1]); ("14", 11, [0; 3; 10]);
     ("146", 8, [0; 3; 4; 5]); ("13", 3, [0; 1; 2]); ("13", 7, [0; 1; 2]); ("135", 7, [0; 1; 2; 3; 4]);
     ("23", 8, [0; 1; 2; 7]); ("4", 7, [0; 3; 6]); ("45", 6, [0; 3; 4; 5]); ("46", 9, [0; 3; 4; 5; 8]);
     ("6152", 6, [0; 1; 4; 5]); ("342", 6, [0; 1; 2; 3]); ("32", 8, [0; 1; 2; 7]); ("21", 5, [0; 1; 4])] /\
  pn_parse (s2l "2" ++ [9%N] ++ s2l "  1 |")%list 5 = Ret (Ok (PlaceNot [0; 1; 4] 5)) /\
  pn_parse (s2l "   6" ++ [10%N] ++ s2l "?15&2!")%list 6 = Ret (Ok (PlaceNot [0; 1; 4; 5] 6)).
Proof. vm_compute. repeat split. Qed.

(* place_not.rs 744-801 *)
Example parse_errs :
  map (fun '(t, s) => pn_parse (s2l t) s) (list_prod ["x"; "X"; "-"] [3; 5; 7; 9; 11; 13; 15])
  = map (fun '(_, s) => Ret (Err (OddStageCross s))) (list_prod ["x"; "X"; "-"] [3; 5; 7; 9; 11; 13; 15]) /\
  map (fun '(t, s) => pn_parse (s2l t) s) [("148", 4); ("91562", 6); ("  3", 2)]
  = map (fun '(p, s) => Ret (Err (PlaceOutOfStage p s))) [(7, 4); (8, 6); (2, 2)] /\
  map (pn_parse []) (seq 1 11) = repeat (Ret (Err NoPlacesGiven)) 11 /\
  map (fun '(t, s) => pn_parse (s2l t) s) [("15", 8); ("39", 10); ("1925", 12); ("1026", 10)]
  = map (fun '(p, q) => Ret (Err (AmbiguousPlacesBetween p q))) [(0, 4); (2, 8); (4, 8); (1, 5)].
Proof. vm_compute. repeat split. Qed.

(* place_not.rs 804-825 *)
Definition block_cases : list (stage * string * string * nat) :=
  [(3, "1.3", "1   .  3", 2); (4, "-4-3-1-..2", "x14x34x14x12", 8); (4, "-4-3-1-..2", "-14x34-14x12", 8);
   (4, "x14x14,12", "-14-14-14-12", 8); (7, "2.3", "2,3", 2); (8, "x1,1x,x1,1x,x1,2", "-18-18-18-18,12", 16);
   (8, "+x4x1,", "x14x18", 4); (12, "x4x1,", "x14x1Tx14x", 7); (12, "xxx1", "---1T", 4)].
Definition block_len (b : exec (result pn_block pn_block_error)) : option nat :=
  match b with Ret (Ok b) => Some (pn_block_len b) | _ => None end.
Example parse_block_ok :
  map (fun '(s, t, _, _) => pn_block_parse (s2l t) s) block_cases = map (fun '(s, _, t, _) => pn_block_parse (s2l t) s) block_cases /\
  map (fun '(s, t, _, _) => block_len (pn_block_parse (s2l t) s)) block_cases = map (fun '(_, _, _, n) => Some n) block_cases /\
  pn_block_parse (s2l "x   -" ++ [9%N] ++ s2l "x1") 12 = pn_block_parse (s2l "---1T") 12 /\
  block_len (pn_block_parse (s2l "---1T") 12) = Some 4.
Proof. vm_compute. repeat split. Qed.

(* place_not.rs 828-887; [Block] is [AnnotBlock<()>] *)
Definition expand (s : stage) (t : string) (start : string) : exec (list row) :=
  match pn_block_parse (s2l t) s with
  | Ret (Ok b) =>
      match pn_block_to_block tt b (row_of start) with
      | Ret (Ok blk) => ssv_rows (blk_rows blk)
      | _ => Panic
      end
  | _ => Panic
  end.
Definition alnick_lead : list string :=
  ["156342"; "516324"; "153642"; "513462"; "531426"; "354162"; "351426"; "534162"; "354612"; "345621"; "436512";
   "463521"; "643251"; "634215"; "362451"; "326415"; "236145"; "321654"; "326145"; "231654"; "213645"; "123465";
   "214356"; "124365"; "123456"].
Definition plain_bob_major_lead : list string :=
  ["12345678"; "21436587"; "24163857"; "42618375"; "46281735"; "64827153"; "68472513"; "86745231"; "87654321";
   "78563412"; "75836142"; "57381624"; "53718264"; "35172846"; "31527486"; "13254768"; "13527486"].
Example pn_to_block :
  expand 6 "34-36.14-12-36.14-14.36,12" "156342" = Ret (map row_of alnick_lead) /\
  expand 6 "34-3.4-2-3.4-4.3,+2" "156342" = Ret (map row_of alnick_lead) /\
  expand 8 "x18x18x18x18,12" "12345678" = Ret (map row_of plain_bob_major_lead).
Proof. vm_compute. repeat split. Qed.

(* place_not.rs 890-901 *)
Example pn_between_rows :
  map (fun '(r1, r2) => pn_between (row_of r1) (row_of r2))
    [("12345678", "13245678"); ("12345678", "13246587"); ("18247653", "81246753")]
  = map (fun t => Ret (Some (pn_of t 8))) ["145678"; "14"; "3478"].
Proof. vm_compute. reflexivity. Qed.

(** ** music.rs *)

(* music.rs 466-487 *)
Example regex_normalise :
  map (fun t => regex_display (regex_of t))
    [""; "*"; "**"; "***"; "****"; "x"; "**5678"; "*1**"; "*1"; "xxxx5678"; "x*"; "1*x*3"; "1*x**x**"; "1*x*2*x**"]
  = map s2l [""; "*"; "*"; "*"; "*"; "x"; "*5678"; "*1*"; "*1"; "xxxx5678"; "x*"; "1x*3"; "1xx*"; "1x*2x*"].
Proof. vm_compute. reflexivity. Qed.

(* music.rs 490-534, 537-572 *)
Definition regex_cases : list (string * string * option (list nat)) :=
  [("xxxx", "3412", Some []); ("xxxx", "4321", Some []); ("xxxx", "54321", None);
   ("x1xx", "2134", Some [1]); ("x1xx", "4321", None); ("x1", "21345", None);
   ("*1234", "1234", Some [0; 1; 2; 3]); ("*1234", "51234", Some [1; 2; 3; 4]); ("*1234", "123", None);
   ("*6578", "12346578", Some [4; 5; 6; 7]); ("*65*78", "12346578", Some [4; 5; 6; 7]);
   ("*65*78", "12653478", Some [2; 3; 6; 7]); ("*65*78", "12657834", None);
   ("x*12*34", "61257834", Some [1; 2; 6; 7]); ("x*12*34", "12657834", None); ("x*12*34", "51234", Some [1; 2; 3; 4]);
   ("x*12*34", "1234", None); ("x*12*34", "12534", None);
   ("*1x2x3x4*", "18273645", Some [0; 2; 4; 6]); ("*1x2x3x4*", "091E273645T8", Some [2; 4; 6; 8])].
Example regex_match_pattern :
  map (fun '(t, r, _) => match_pattern (regex_of t) (row_of r)) regex_cases = map (fun '(_, _, o) => Ret o) regex_cases /\
  map (fun '(t, r, _) => regex_matches (regex_of t) (row_of r)) regex_cases
  = map (fun '(_, _, o) => Ret match o with Some _ => true | None => false end) regex_cases.
Proof. vm_compute. repeat split. Qed.

(** ** mask.rs *)

(* mask.rs 348-367 *)
Example mask_matches_test :
  map (fun '(m, r) => mask_matches (mask_of m) (row_of r))
    [("1xx45", "12345"); ("x", "1"); ("1", "1"); ("123456", "123456"); ("123456", "123465"); ("123456", "1234567");
     ("x1xx56", "123456"); ("x1xx56", "214356"); ("x1xx56", "241356")]
  = map Ret [true; true; true; true; false; false; false; true; false].
Proof. vm_compute. reflexivity. Qed.

(* mask.rs 370-401 *)
Example mask_products :
  map (fun '(r, m) => row_mul_mask (row_of r) (mask_of m)) [("12345", "1xx45"); ("32154", "1xx45"); ("67812345", "xxxx6578")]
  = map (fun t => Ret (mask_of t)) ["1xx45"; "3xx54"; "xxxx3245"] /\
  map (fun '(m, r) => mask_mul_row (mask_of m) (row_of r)) [("1xx45", "12345"); ("1xx45", "32154"); ("xxxx6578", "67812345")]
  = map (fun t => Ret (mask_of t)) ["1xx45"; "xx154"; "578xxxx6"].
Proof. vm_compute. repeat split. Qed.

(** ** method/class.rs: the test (581-598) runs over a library that is downloaded.  These methods of
    the Central Council's library stand in for it. *)
Definition class_of (s : stage) (t : string) : option str :=
  match pn_block_parse (s2l t) s with
  | Ret (Ok b) =>
      match pn_block_to_block_from_rounds tt b with
      | Ret blk => match classify (fun l => l) blk with Ret c => Some (full_class_display c) | _ => None end
      | _ => None
      end
  | _ => None
  end.
Example classification :
  map (fun '(s, t, _) => class_of s t)
    [(8, "x18x18x18x18,12", "Plain Bob Major"); (6, "-36-14-12-36-14-56,12", "Cambridge Surprise Minor");
     (6, "34-36.14-12-36.14-14.36,12", "Alnwick Surprise Minor"); (8, "-58-14.58-58.36.14-14.58-14-18,18", "Bristol Surprise Major");
     (6, "34-34.16-12-16-12-16,16", "Kent Treble Bob Minor"); (5, "3,1.5.1.5.1", "Grandsire Bob Doubles");
     (5, "3.1.5.3.1.3.1.3.5.1.3.1", "Stedman Doubles"); (8, "-1", "Original Major")]
  = map (fun t => Some (s2l t)) ["Bob"; "Surprise"; "Surprise"; "Surprise"; "Treble Bob"; "Bob"; "Principle"; "Principle"].
Proof. vm_compute. reflexivity. Qed.
