(** Model of UTF-8, the encoding of the bytes of a [String] and of the text of a file: what
    [std::fs::write] stores of a text and what [std::fs::read_to_string] accepts, as used in
    /repo/src/method_lib/mod.rs 194, 209.  Bytes are numbers below 256. *)
From Verif Require Import Base.
Local Open Scope N_scope.
Local Open Scope list_scope.

(** A [char]: any code point which is not a surrogate. *)
(* [char], the items of all texts in /repo *)
Definition is_scalar (c : N) : bool := (c <? 55296) || ((57344 <=? c) && (c <? 1114112)).

(** [char::encode_utf8] *)
(* std::fs::write of a text, method_lib/mod.rs 209 *)
Definition encode_char (c : N) : list N :=
  if c <? 128 then [c]
  else if c <? 2048 then [192 + c / 64; 128 + c mod 64]
  else if c <? 65536 then [224 + c / 4096; 128 + (c / 64) mod 64; 128 + c mod 64]
  else [240 + c / 262144; 128 + (c / 4096) mod 64; 128 + (c / 64) mod 64; 128 + c mod 64].

(** [str::as_bytes] *)
(* std::fs::write of a text, method_lib/mod.rs 209 *)
Definition utf8_encode (t : list N) : list N := flat_map encode_char t.

(* std::fs::read_to_string, method_lib/mod.rs 194 *)
Definition between (lo hi b : N) : bool := (lo <=? b) && (b <=? hi).
(* std::fs::read_to_string, method_lib/mod.rs 194 *)
Definition is_cont (b : N) : bool := between 128 191 b.

(** [str::from_utf8]: the table of well-formed sequences in the Unicode standard *)
(* std::fs::read_to_string, method_lib/mod.rs 194 *)
Fixpoint utf8_decode (bytes : list N) : option (list N) :=
  match bytes with
  | [] => Some []
  | b0 :: t0 =>
      if b0 <? 128 then option_map (cons b0) (utf8_decode t0)
      else if between 194 223 b0 then
        match t0 with
        | b1 :: t1 =>
            if is_cont b1 then option_map (cons ((b0 - 192) * 64 + (b1 - 128))) (utf8_decode t1) else None
        | _ => None
        end
      else if between 224 239 b0 then
        match t0 with
        | b1 :: b2 :: t2 =>
            if between (if b0 =? 224 then 160 else 128) (if b0 =? 237 then 159 else 191) b1 && is_cont b2
            then option_map (cons ((b0 - 224) * 4096 + (b1 - 128) * 64 + (b2 - 128))) (utf8_decode t2)
            else None
        | _ => None
        end
      else if between 240 244 b0 then
        match t0 with
        | b1 :: b2 :: b3 :: t3 =>
            if between (if b0 =? 240 then 144 else 128) (if b0 =? 244 then 143 else 191) b1 &&
               is_cont b2 && is_cont b3
            then option_map (cons ((b0 - 240) * 262144 + (b1 - 128) * 4096 + (b2 - 128) * 64 + (b3 - 128)))
                   (utf8_decode t3)
            else None
        | _ => None
        end
      else None
  end.
