(** Model of the JSON text of a library: /repo/src/method_lib/mod.rs 157-171, with the crate
    serde_json (external: its [to_string] and [from_str] are written out as documented).  Texts are
    lists of chars; the messages of errors are not modelled.  The limit of serde_json on how deeply
    values are nested is not modelled, because it does not apply to ignored values and all others are
    nested less than five times. *)
From Coq Require Import DecimalString.
From Verif Require Import Base Bell Stage Class Method Library Serde.
Local Open Scope list_scope.

(** ** Writing *)

(** Two hexadecimal digits, in lower case. *)
(* serde_json::to_string, called at method_lib/mod.rs 163 *)
Definition hex_char (n : N) : char := if (n <? 10)%N then (48 + n)%N else (87 + n)%N.

(** serde_json escapes quotes, backslashes and the control characters below 32. *)
Definition escape_char (c : char) : str :=
  if (c =? 34)%N then s2l "\" ++ [34%N]
  else if (c =? 92)%N then s2l "\\"
  else if (c =? 8)%N then s2l "\b"
  else if (c =? 9)%N then s2l "\t"
  else if (c =? 10)%N then s2l "\n"
  else if (c =? 12)%N then s2l "\f"
  else if (c =? 13)%N then s2l "\r"
  else if (c <? 32)%N then s2l "\u00" ++ [hex_char (c / 16); hex_char (c mod 16)]
  else [c].

(* serde_json::to_string, called at method_lib/mod.rs 163 *)
Definition write_string (t : str) : str := [34%N] ++ flat_map escape_char t ++ [34%N].

(** Decimal digits without leading zeros. *)
(* serde_json::to_string, called at method_lib/mod.rs 163 *)
Definition write_number (n : N) : str := s2l (NilEmpty.string_of_uint (N.to_uint n)).

(** Items with a comma between them. *)
(* serde_json::to_string, called at method_lib/mod.rs 163 *)
Fixpoint commas (items : list str) : str :=
  match items with
  | [] => []
  | [x] => x
  | x :: t => x ++ [44%N] ++ commas t
  end.

(** [serde_json::to_string]: no spaces.  [JOther] is never written. *)
Fixpoint json_write (j : json) : str :=
  match j with
  | JNull => s2l "null"
  | JBool true => s2l "true"
  | JBool false => s2l "false"
  | JNum n => write_number n
  | JStr t => write_string t
  | JArr l => [91%N] ++ commas (map json_write l) ++ [93%N]
  | JObj fields =>
      [123%N] ++ commas (map (fun '(k, v) => write_string k ++ [58%N] ++ json_write v) fields) ++ [125%N]
  | JOther => []
  end.

(** ** Reading *)

(* serde_json::from_str, called at method_lib/mod.rs 169 *)
Definition is_ws (c : char) : bool := ((c =? 32) || (c =? 10) || (c =? 9) || (c =? 13))%N.

(* serde_json::from_str, called at method_lib/mod.rs 169 *)
Fixpoint skip_ws (t : str) : str :=
  match t with
  | [] => []
  | c :: t' => if is_ws c then skip_ws t' else t
  end.

(** The text after the char [c], which must be the next one that is not a space. *)
(* serde_json::from_str, called at method_lib/mod.rs 169 *)
Definition expect (c : char) (t : str) : option str :=
  match skip_ws t with
  | x :: t' => if (x =? c)%N then Some t' else None
  | [] => None
  end.

(* serde_json::from_str, called at method_lib/mod.rs 169 *)
Definition hex_digit (c : char) : option N :=
  if ((48 <=? c) && (c <=? 57))%N then Some (c - 48)%N
  else if ((97 <=? c) && (c <=? 102))%N then Some (c - 87)%N
  else if ((65 <=? c) && (c <=? 70))%N then Some (c - 55)%N
  else None.

(* serde_json::from_str, called at method_lib/mod.rs 169 *)
Definition hex4 (a b c d : char) : option N :=
  match hex_digit a, hex_digit b, hex_digit c, hex_digit d with
  | Some a, Some b, Some c, Some d => Some (((a * 16 + b) * 16 + c) * 16 + d)%N
  | _, _, _, _ => None
  end.

(** The char which a backslash and a letter other than [u] stand for. *)
(* serde_json::from_str, called at method_lib/mod.rs 169 *)
Definition simple_escape (e : char) : option char :=
  if (e =? 34)%N then Some 34%N
  else if (e =? 92)%N then Some 92%N
  else if (e =? 47)%N then Some 47%N
  else if (e =? 98)%N then Some 8%N
  else if (e =? 102)%N then Some 12%N
  else if (e =? 110)%N then Some 10%N
  else if (e =? 114)%N then Some 13%N
  else if (e =? 116)%N then Some 9%N
  else None.

(** What a string literal is made of: chars, and numbers written with [\u]. *)
(* serde_json::from_str, called at method_lib/mod.rs 169 *)
Inductive string_piece := PieceChar (c : char) | PieceHex (n : N).

(* serde_json::from_str, called at method_lib/mod.rs 169 *)
Definition cons_piece (p : string_piece) (r : option (list string_piece * str)) :=
  match r with
  | Some (l, rest) => Some (p :: l, rest)
  | None => None
  end.

(** A string literal after its opening quote, and the text after its closing quote. *)
(* serde_json::from_str, called at method_lib/mod.rs 169 *)
Fixpoint lex_string (t : str) : option (list string_piece * str) :=
  match t with
  | [] => None
  | c :: t1 =>
      if (c =? 34)%N then Some ([], t1)
      else if (c <? 32)%N then None
      else if (c =? 92)%N then
        match t1 with
        | [] => None
        | e :: t2 =>
            if (e =? 117)%N then
              match t2 with
              | h1 :: h2 :: h3 :: h4 :: t3 =>
                  match hex4 h1 h2 h3 h4 with
                  | Some n => cons_piece (PieceHex n) (lex_string t3)
                  | None => None
                  end
              | _ => None
              end
            else match simple_escape e with
                 | Some x => cons_piece (PieceChar x) (lex_string t2)
                 | None => None
                 end
        end
      else cons_piece (PieceChar c) (lex_string t1)
  end.

(* serde_json::from_str, called at method_lib/mod.rs 169 *)
Definition leading_surrogate (n : N) : bool := ((55296 <=? n) && (n <=? 56319))%N.
(* serde_json::from_str, called at method_lib/mod.rs 169 *)
Definition trailing_surrogate (n : N) : bool := ((56320 <=? n) && (n <=? 57343))%N.

(** The text itself; [None] when surrogates are not in pairs. *)
(* serde_json::from_str, called at method_lib/mod.rs 169 *)
Fixpoint decode_pieces (l : list string_piece) : option str :=
  match l with
  | [] => Some []
  | PieceChar c :: t => option_map (cons c) (decode_pieces t)
  | PieceHex n :: t =>
      if trailing_surrogate n then None
      else if leading_surrogate n then
        match t with
        | PieceHex m :: t' =>
            if trailing_surrogate m
            then option_map (cons ((n - 55296) * 1024 + (m - 56320) + 65536)%N) (decode_pieces t')
            else None
        | _ => None
        end
      else option_map (cons n) (decode_pieces t)
  end.

(* serde_json::from_str, called at method_lib/mod.rs 169 *)
Definition is_digit (c : char) : bool := ((48 <=? c) && (c <=? 57))%N.

(* serde_json::from_str, called at method_lib/mod.rs 169 *)
Fixpoint take_digits (t : str) : str * str :=
  match t with
  | [] => ([], [])
  | c :: t' => if is_digit c then let (ds, rest) := take_digits t' in (c :: ds, rest) else ([], t)
  end.

(* serde_json::from_str, called at method_lib/mod.rs 169 *)
Definition digits_value (ds : str) : N := fold_left (fun n c => n * 10 + (c - 48))%N ds 0%N.

(** One or more digits. *)
(* serde_json::from_str, called at method_lib/mod.rs 169 *)
Definition some_digits (t : str) : option str :=
  match take_digits t with
  | ([], _) => None
  | (_ :: _, rest) => Some rest
  end.

(** [Some (b, rest)]: after an optional fraction; [b] is whether there was one. *)
(* serde_json::from_str, called at method_lib/mod.rs 169 *)
Definition lex_fraction (t : str) : option (bool * str) :=
  match t with
  | c :: t' => if (c =? 46)%N then option_map (pair true) (some_digits t') else Some (false, t)
  | [] => Some (false, t)
  end.

(** The same for an exponent. *)
(* serde_json::from_str, called at method_lib/mod.rs 169 *)
Definition lex_exponent (t : str) : option (bool * str) :=
  match t with
  | c :: t' =>
      if ((c =? 101) || (c =? 69))%N then
        let t'' := match t' with
                   | s :: t'' => if ((s =? 43) || (s =? 45))%N then t'' else t'
                   | [] => t'
                   end in
        option_map (pair true) (some_digits t'')
      else Some (false, t)
  | [] => Some (false, t)
  end.

(** A number without its sign. *)
(* serde_json::from_str, called at method_lib/mod.rs 169 *)
Definition lex_unsigned (negative : bool) (t : str) : option (json * str) :=
  let (ds, t1) := take_digits t in
  let leading_zero := match ds with c :: _ :: _ => (c =? 48)%N | _ => false end in
  match ds with
  | [] => None
  | _ :: _ =>
      if leading_zero then None
      else match lex_fraction t1 with
           | None => None
           | Some (fraction, t2) =>
               match lex_exponent t2 with
               | None => None
               | Some (exponent, t3) =>
                   Some (if negative || fraction || exponent then JOther else JNum (digits_value ds), t3)
               end
           end
  end.

(* serde_json::from_str, called at method_lib/mod.rs 169 *)
Fixpoint strip_prefix (p t : str) : option str :=
  match p, t with
  | [], _ => Some t
  | x :: p', y :: t' => if (x =? y)%N then strip_prefix p' t' else None
  | _, _ => None
  end.

(* serde_json::from_str, called at method_lib/mod.rs 169 *)
Definition lex_word (word : str) (j : json) (t : str) : option (json * str) :=
  option_map (pair j) (strip_prefix word t).

(** A value which does not hold other values; [t] does not start with a space. *)
(* serde_json::from_str, called at method_lib/mod.rs 169 *)
Definition lex_scalar (t : str) : option (json * str) :=
  match t with
  | [] => None
  | c :: t' =>
      if (c =? 34)%N then
        match lex_string t' with
        | None => None
        | Some (pieces, rest) =>
            Some (match decode_pieces pieces with Some s => JStr s | None => JOther end, rest)
        end
      else if (c =? 45)%N then lex_unsigned true t'
      else if is_digit c then lex_unsigned false t
      else if (c =? 110)%N then lex_word (s2l "null") JNull t
      else if (c =? 116)%N then lex_word (s2l "true") (JBool true) t
      else if (c =? 102)%N then lex_word (s2l "false") (JBool false) t
      else None
  end.

(** An object, whose keys may not be Unicode. *)
(* serde_json::from_str, called at method_lib/mod.rs 169 *)
Definition object_of (fields : list (option str * json)) : json :=
  match mapO (fun '(k, v) => option_map (fun k => (k, v)) k) fields with
  | Some fields => JObj fields
  | None => JOther
  end.

(** A value at the start of the text, and the text after it. *)
(* serde_json::from_str, called at method_lib/mod.rs 169 *)
Fixpoint parse_value (fuel : nat) (t : str) {struct fuel} : exec (option (json * str)) :=
  match fuel with
  | O => NoFuel
  | S fuel' =>
      match expect 91 t with
      | Some t1 =>
          match expect 93 t1 with
          | Some rest => Ret (Some (JArr [], rest))
          | None =>
              r <- parse_elems fuel' t1;;
              Ret (match r with Some (l, rest) => Some (JArr l, rest) | None => None end)
          end
      | None =>
          match expect 123 t with
          | Some t1 =>
              match expect 125 t1 with
              | Some rest => Ret (Some (JObj [], rest))
              | None =>
                  r <- parse_fields fuel' t1;;
                  Ret (match r with Some (l, rest) => Some (object_of l, rest) | None => None end)
              end
          | None => Ret (lex_scalar (skip_ws t))
          end
      end
  end

(** One or more elements of an array, and its closing bracket. *)
(* serde_json::from_str, called at method_lib/mod.rs 169 *)
with parse_elems (fuel : nat) (t : str) {struct fuel} : exec (option (list json * str)) :=
  match fuel with
  | O => NoFuel
  | S fuel' =>
      v <- parse_value fuel' t;;
      match v with
      | None => Ret None
      | Some (j, t1) =>
          match expect 93 t1 with
          | Some rest => Ret (Some ([j], rest))
          | None =>
              match expect 44 t1 with
              | None => Ret None
              | Some t2 =>
                  r <- parse_elems fuel' t2;;
                  Ret (match r with Some (l, rest) => Some (j :: l, rest) | None => None end)
              end
          end
      end
  end

(** One or more fields of an object, and its closing brace. *)
(* serde_json::from_str, called at method_lib/mod.rs 169 *)
with parse_fields (fuel : nat) (t : str) {struct fuel}
  : exec (option (list (option str * json) * str)) :=
  match fuel with
  | O => NoFuel
  | S fuel' =>
      match expect 34 t with
      | None => Ret None
      | Some t1 =>
          match lex_string t1 with
          | None => Ret None
          | Some (pieces, t2) =>
              match expect 58 t2 with
              | None => Ret None
              | Some t3 =>
                  v <- parse_value fuel' t3;;
                  match v with
                  | None => Ret None
                  | Some (j, t4) =>
                      let f := (decode_pieces pieces, j) in
                      match expect 125 t4 with
                      | Some rest => Ret (Some ([f], rest))
                      | None =>
                          match expect 44 t4 with
                          | None => Ret None
                          | Some t5 =>
                              r <- parse_fields fuel' t5;;
                              Ret (match r with Some (l, rest) => Some (f :: l, rest) | None => None end)
                          end
                      end
                  end
              end
          end
      end
  end.

(** The value of a text which holds nothing else; each step takes a char, or is followed by one
    which does, so this bound is enough. *)
(* serde_json::from_str, called at method_lib/mod.rs 169 *)
Definition json_read (t : str) : exec (option json) :=
  r <- parse_value (S (S (2 * length t))) t;;
  Ret (match r with
       | Some (j, rest) => match skip_ws rest with [] => Some j | _ :: _ => None end
       | None => None
       end).

(** ** Libraries *)

Section Library.
Context (to_lowercase : str -> str).
Context (lib_order : list (stage * list (str * compact_method)) -> list (stage * list (str * compact_method))).
Context (stage_order : list (str * compact_method) -> list (str * compact_method)).
Context (group_order : list ((stage * full_class) * list compact_method) ->
                       list ((stage * full_class) * list compact_method)).

(* method_lib/mod.rs 162-164; writing to a [String] cannot fail *)
Definition to_json (lib : method_lib) : exec str :=
  compact <- lib_to_serde lib_order stage_order group_order lib;;
  Ret (json_write (lib_to_json compact)).

(* method_lib/mod.rs 168-170; [None] is an error of serde_json *)
Definition from_json (text : str) : exec (option method_lib) :=
  j <- json_read text;;
  match j with
  | None => Ret None
  | Some j =>
      match lib_from_json j with
      | None => Ret None
      | Some compact => lib <- lib_from_serde to_lowercase compact;; Ret (Some lib)
      end
  end.
End Library.
