(** Model of [MethodLib::cc_lib], /repo/src/method_lib/mod.rs 173-221: the library of the Central
    Council, from a cache file or from the web.  External: the answer of the web request (a text, or
    a failure), whether there is a cache directory, what the operating system makes of each file
    operation, and [str::to_lowercase]. *)
From Verif Require Import Base Bell Stage Class Method Library Serde Json Utf8.
Local Open Scope list_scope.

(** The cache file: [None] when there is no file, or its bytes. *)
Notation file := (option (list N)) (only parsing).

Section Cache.
Context (to_lowercase : str -> str).
(** Whether [dirs::cache_dir] gives a directory (mod.rs 215-220, [cache_file_path]) *)
Context (has_dir : bool).

(** What is made of the bytes which were read: [read_to_string] fails on bytes which are not UTF-8 *)
(* method_lib/mod.rs 194-195 *)
Definition load_bytes (bytes : list N) : exec (option method_lib) :=
  match utf8_decode bytes with
  | None => Ret None
  | Some json => from_json to_lowercase json
  end.

(* mod.rs 192-196 *)
Definition load_cc_lib_from_cache (f : file) : exec (option method_lib) :=
  if has_dir then match f with None => Ret None | Some bytes => load_bytes bytes end else Ret None.

(** ** One call at a time *)

(** What becomes of [std::fs::write]: the file cannot be opened and is left as it is; or it is
    emptied, the first [k] bytes are written, and then there is an error or the text is complete. *)
Inductive write_outcome := CreateFails | Writes (k : nat).

(* std::fs::write, method_lib/mod.rs 209 *)
Definition write_file (w : write_outcome) (bytes : list N) (f : file) : file :=
  match w with
  | CreateFails => f
  | Writes k => Some (firstn k bytes)
  end.

(* mod.rs 199-212: [net] is the text of the response; gives the result and the file *)
Definition fetch_cc_lib (net : option str) (w : write_outcome) (f : file)
  : exec (option method_lib * file) :=
  match net with
  | None => Ret (None, f)
  | Some json =>
      lib <- from_json to_lowercase json;;
      match lib with
      | None => Ret (None, f)
      | Some lib => Ret (Some lib, if has_dir then write_file w (utf8_encode json) f else f)
      end
  end.

(* mod.rs 180-188: gives the result, the file, and whether there was a request *)
Definition cc_lib (net : option str) (w : write_outcome) (f : file)
  : exec (option method_lib * file * bool) :=
  cached <- load_cc_lib_from_cache f;;
  match cached with
  | Some lib => Ret (Some lib, f, false)
  | None => '(r, f') <- fetch_cc_lib net w f;; Ret (r, f', true)
  end.

(** A history of calls.  [Killed]: the process or the machine stops during [std::fs::write], after
    [k] bytes are on the disk and the file perhaps became longer by [zeros] bytes which were not
    written yet; it may also be killed earlier, which leaves no trace.  A call which panics has not
    written anything. *)
Inductive event :=
| Call (net : option str) (w : write_outcome)
| Killed (net : option str) (k zeros : nat).

(** How a call ended *)
(* how a call of mod.rs 180-188 can end *)
Inductive ending := Returned (r : option method_lib) (requested : bool) | Panicked | Stopped.

(* no code of its own: one call of mod.rs 180-188, and what may happen to it *)
Definition run_event (e : event) (f : file) : exec (ending * file) :=
  match e with
  | Call net w =>
      match cc_lib net w f with
      | Ret (r, f', requested) => Ret (Returned r requested, f')
      | Panic => Ret (Panicked, f)
      | Ub => Ub
      | NoFuel => NoFuel
      end
  | Killed net k zeros =>
      match cc_lib net (Writes k) f with
      | Ret (Some _, Some bytes, true) =>
          Ret (Stopped, if has_dir then Some (bytes ++ repeat 0%N zeros) else f)
      | _ => Ret (Stopped, f)
      end
  end.

(* no code of its own: calls of mod.rs 180-188 one after the other *)
Fixpoint run_history (es : list event) (f : file) : exec (list ending * file) :=
  match es with
  | [] => Ret ([], f)
  | e :: t =>
      '(r, f') <- run_event e f;;
      '(rs, f'') <- run_history t f';;
      Ret (r :: rs, f'')
  end.

(** ** Calls at the same time

    Several calls, in threads or processes, share the cache file.  Reading and writing are done in
    pieces of any size, each at the offset which the call has reached; a write past the end of the
    file fills the gap with zeros.  [answers] says which answers a request may get. *)
Context (answers : option str -> Prop).

(* where a call of mod.rs 180-212 stands *)
Inductive call_state :=
| Starting
| Reading (buf : list N)                         (** has the file open and has read [buf] *)
| Fetching                                       (** the cache could not be loaded *)
| Saving (json : str) (lib : method_lib)         (** before opening the file for writing *)
| Writing (json : str) (lib : method_lib) (off : nat)
| Done (r : option method_lib)
| Crashed                                        (** the process ended *)
| Panicking.

(** [write] at an offset *)
(* std::fs::write, method_lib/mod.rs 209 *)
Definition write_at (bytes : list N) (off : nat) (new : list N) : list N :=
  firstn off bytes ++ repeat 0%N (off - length bytes) ++ new ++ skipn (off + length new) bytes.

(** The bytes of the next piece, of size at most [m] *)
(* std::fs::write and read_to_string, method_lib/mod.rs 194, 213 *)
Definition piece (bytes : list N) (off m : nat) : list N := firstn m (skipn off bytes).

(** One step of one call: the file and its state before and after. *)
(* mod.rs 180-212, one system call at a time *)
Inductive call_step : file -> call_state -> file -> call_state -> Prop :=
(** 196-197: no directory, or the file cannot be opened *)
| OpenFails f : call_step f Starting f Fetching
| Opens bytes : has_dir = true -> call_step (Some bytes) Starting (Some bytes) (Reading [])
| Reads bytes buf m : piece bytes (length buf) m <> [] ->
    call_step (Some bytes) (Reading buf) (Some bytes) (Reading (buf ++ piece bytes (length buf) m))
| ReadFails f buf : call_step f (Reading buf) f Fetching
(** the end of the file: 198 and 183-185 *)
| Loads bytes buf lib : length bytes <= length buf -> load_bytes buf = Ret (Some lib) ->
    call_step (Some bytes) (Reading buf) (Some bytes) (Done (Some lib))
| LoadFails bytes buf : length bytes <= length buf -> load_bytes buf = Ret None ->
    call_step (Some bytes) (Reading buf) (Some bytes) Fetching
| LoadPanics bytes buf : length bytes <= length buf -> load_bytes buf = Panic ->
    call_step (Some bytes) (Reading buf) (Some bytes) Panicking
(** 203-208 *)
| NoAnswer f : answers None -> call_step f Fetching f (Done None)
| Answer f json lib : answers (Some json) -> from_json to_lowercase json = Ret (Some lib) ->
    call_step f Fetching f (Saving json lib)
| BadAnswer f json : answers (Some json) -> from_json to_lowercase json = Ret None ->
    call_step f Fetching f (Done None)
| PanicAnswer f json : answers (Some json) -> from_json to_lowercase json = Panic ->
    call_step f Fetching f Panicking
(** 211-215: no directory, or the file cannot be opened *)
| CreateFailed f json lib : call_step f (Saving json lib) f (Done (Some lib))
| Creates f json lib : has_dir = true -> call_step f (Saving json lib) (Some []) (Writing json lib 0)
| WritesSome bytes json lib off m : piece (utf8_encode json) off m <> [] ->
    call_step (Some bytes) (Writing json lib off)
      (Some (write_at bytes off (piece (utf8_encode json) off m)))
      (Writing json lib (off + length (piece (utf8_encode json) off m)))
(** all is written, or a write failed *)
| WriteEnds f json lib off : call_step f (Writing json lib off) f (Done (Some lib))
| Crashes f s : call_step f s f Crashed.

(** One step of the whole system: a new call, or a step of one of them. *)
(* no code of its own: calls of mod.rs 180-188 at the same time *)
Inductive system_step : file * list call_state -> file * list call_state -> Prop :=
| NewCall f calls : system_step (f, calls) (f, calls ++ [Starting])
| StepCall f f' before s s' after : call_step f s f' s' ->
    system_step (f, before ++ s :: after) (f', before ++ s' :: after).

(* no code of its own: calls of mod.rs 180-188 at the same time *)
Inductive system_steps : file * list call_state -> file * list call_state -> Prop :=
| NoStep x : system_steps x x
| OneStep x y z : system_steps x y -> system_step y z -> system_steps x z.
End Cache.
