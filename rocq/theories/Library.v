(** Model of /repo/src/method_lib/mod.rs and /repo/src/method_lib/lib_serde.rs (without the
    download and the cache file, method_lib/mod.rs 177-221, which are in Cache.v; the CCCBR XML
    parser, parse_cc_lib.rs, is in CcXml.v). *)
From Verif Require Import Base Bell Stage Row Utils SameStageVec Block PlaceNot Class Method.
Local Open Scope list_scope.

(** ** Hash maps: a list of entries with different keys.  The order in which a map is iterated over
    is given by a function which is a parameter of the definitions that iterate. *)

Section HashMap.
Context {K V : Type} (eqb : K -> K -> bool).

(** [HashMap::get] *)
(* method_lib/mod.rs 53-54 *)
Definition hm_get (m : list (K * V)) (k : K) : option V :=
  option_map snd (find (fun e => eqb (fst e) k) m).

(** [HashMap::insert]: the new value replaces the one stored under an equal key *)
(* lib_serde.rs 111 *)
Fixpoint hm_insert (m : list (K * V)) (k : K) (v : V) : list (K * V) :=
  match m with
  | [] => [(k, v)]
  | (k', v') :: t => if eqb k' k then (k', v) :: t else (k', v') :: hm_insert t k v
  end.

(** [HashMap::entry(k).or_insert_with(|| d)], and then the update [f] of the entry *)
(* lib_serde.rs 34-35, 97-98 *)
Definition hm_update (m : list (K * V)) (k : K) (d : V) (f : V -> V) : list (K * V) :=
  hm_insert m k (f (match hm_get m k with Some v => v | None => d end)).
End HashMap.

(** ** The library *)

(* method_lib/mod.rs 226-231 *)
Record compact_method := CompactMethod
  { cm_name : str; cm_title : str; cm_full_class : full_class; cm_place_notation : str }.

(* method_lib/mod.rs 13, 16-19 *)
Definition method_lib := list (stage * list (str * compact_method)).

(* method_lib/mod.rs 246-253 *)
Inductive query_error (T : Type) :=
| PnParseErr (pn : str) (error : pn_block_error)
| NotFound (v : T).
Arguments PnParseErr {T} pn error.
Arguments NotFound {T} v.

(* method_lib/mod.rs 266-271 *)
Definition map_not_found {T U} (e : query_error T) (f : T -> U) : query_error U :=
  match e with
  | PnParseErr pn error => PnParseErr pn error
  | NotFound v => NotFound (f v)
  end.

(* method_lib/mod.rs 258-263 *)
Definition unwrap_parse_err {T} (e : query_error T) : exec (result method T) :=
  match e with
  | PnParseErr _ _ => Panic
  | NotFound v => Ret (Err v)
  end.

(* method_lib/mod.rs 234-243 *)
Definition to_method (cm : compact_method) (s : stage) : exec (result method (str * pn_block_error)) :=
  r <- pn_block_parse (cm_place_notation cm) s;;
  match r with
  | Err e => Ret (Err (cm_place_notation cm, e))
  | Ok pns =>
      lead <- pn_block_to_block_from_rounds None pns;;
      Ret (Ok (Method (cm_title cm) (cm_name cm) (cm_full_class cm) lead))
  end.

(** [str::rsplit(' ').next().unwrap()]: what follows the last space *)
(* method_lib/mod.rs 47 *)
Fixpoint take_while {A} (p : A -> bool) (l : list A) : list A :=
  match l with
  | [] => []
  | x :: t => if p x then x :: take_while p t else []
  end.
(* method_lib/mod.rs 47 *)
Definition rsplit_space_next (t : str) : str := rev (take_while (fun c => negb (c =? 32)%N) (rev t)).

(* method_lib/mod.rs 38-57 *)
Definition get_by_title_option (lib : method_lib) (lower_case_title : str)
  : exec (option (result method (str * pn_block_error))) :=
  let stage_name := rsplit_space_next lower_case_title in
  match stage_from_lower_case_name stage_name with
  | None => Ret None
  | Some s =>
      match hm_get Nat.eqb lib s with
      | None => Ret None
      | Some methods =>
          match hm_get str_eqb methods lower_case_title with
          | None => Ret None
          | Some cm => m <- to_method cm s;; Ret (Some m)
          end
      end
  end.

Section Externals.
(** [str::to_lowercase] *)
Context (to_lowercase : str -> str).
(** The function of the crate edit_distance *)
Context (edit_distance : str -> str -> nat).
(** [Shortlist::new(n)], appending all items of the list, and [into_sorted_vec] (crate shortlist).
    An item is a title and its distance; the order of items is the reverse of that of the
    distances (method_lib/mod.rs 109-115). *)
Context (shortlist : nat -> list (str * nat) -> list (str * nat)).

(* method_lib/mod.rs 26-32 *)
Definition get_by_title (lib : method_lib) (title : str) : exec (result method (query_error unit)) :=
  r <- get_by_title_option lib (to_lowercase title);;
  Ret (match r with
       | Some (Ok m) => Ok m
       | Some (Err (pn, error)) => Err (PnParseErr pn error)
       | None => Err (NotFound tt)
       end).

(** The orders in which the maps are iterated over *)
Context (lib_order : list (stage * list (str * compact_method)) -> list (stage * list (str * compact_method))).
Context (stage_order : list (str * compact_method) -> list (str * compact_method)).

(* method_lib/mod.rs 76-139 *)
Definition generate_suggestions (lib : method_lib) (lower_case_title : str) (num_suggestions : nat)
  : list (str * nat) :=
  let suggestions :=
    flat_map (fun '(_, methods) =>
                map (fun '(stored_title, cm) => (cm_title cm, edit_distance lower_case_title stored_title))
                  (stage_order methods))
      (lib_order lib) in
  rev (shortlist num_suggestions suggestions).

(* method_lib/mod.rs 64-73 *)
Definition get_by_title_with_suggestions (lib : method_lib) (title : str) (num_suggestions : nat)
  : exec (result method (query_error (list (str * nat)))) :=
  let lower_case_title := to_lowercase title in
  r <- get_by_title lib lower_case_title;;
  Ret (match r with
       | Ok m => Ok m
       | Err e => Err (map_not_found e (fun _ => generate_suggestions lib lower_case_title num_suggestions))
       end).
End Externals.

(** ** The compact form *)

(* lib_serde.rs 151-160 *)
Record compact_method_serde := CompactMethodSerde
  { cs_title : option str; cs_name : str; cs_place_notation : str }.

(* lib_serde.rs 130-148 *)
Record method_group := MethodGroup
  { g_stage : nat; g_is_jump : bool; g_is_little : bool; g_is_differential : bool;
    g_class_id : nat; g_methods : list compact_method_serde }.

(* lib_serde.rs 19-23 *)
Definition method_lib_serde := list method_group.

(* lib_serde.rs 170-185 *)
Definition to_class_id (c : class) : nat :=
  match c with
  | Principle => 0
  | Place => 1 | Bob => 2
  | TrebleBob => 3 | Delight => 4 | Surprise => 5
  | TreblePlace => 6 | Alliance => 7 | Hybrid => 8
  end.

(* lib_serde.rs 187-204; an unknown number panics before the [expect] can *)
Definition from_class_id (v : nat) : exec class :=
  match v with
  | 0 => Ret Principle
  | 1 => Ret Place | 2 => Ret Bob
  | 3 => Ret TrebleBob | 4 => Ret Delight | 5 => Ret Surprise
  | 6 => Ret TreblePlace | 7 => Ret Alliance | 8 => Ret Hybrid
  | _ => Panic
  end.

(** Derived equality of classes (class.rs 16, 139). *)
Definition class_eqb (a b : class) : bool := to_class_id a =? to_class_id b.
(* derived [PartialEq], class.rs 16 *)
Definition full_class_eqb (a b : full_class) : bool :=
  eqb (is_jump a) (is_jump b) && eqb (is_little a) (is_little b) &&
  eqb (is_differential a) (is_differential b) && class_eqb (fc_class a) (fc_class b).
(* derived [PartialEq] of the pair used as key, lib_serde.rs 34 *)
Definition group_key_eqb (a b : stage * full_class) : bool :=
  (fst a =? fst b) && full_class_eqb (snd a) (snd b).

(* lib_serde.rs 47-63: one method *)
Definition compact_to_serde (s : stage) (c : full_class) (cm : compact_method) : exec compact_method_serde :=
  title <- generate_title (cm_name cm) c s;;
  Ret (CompactMethodSerde (if str_eqb title (cm_title cm) then None else Some (cm_title cm))
         (cm_name cm) (cm_place_notation cm)).

(* lib_serde.rs 43-76: one group *)
Definition group_to_serde (g : (stage * full_class) * list compact_method) : exec method_group :=
  let '((s, c), cms) := g in
  methods <- mapM (compact_to_serde s c) cms;;
  Ret (MethodGroup s (is_jump c) (is_little c) (is_differential c) (to_class_id (fc_class c)) methods).

Section Orders.
Context (lib_order : list (stage * list (str * compact_method)) -> list (stage * list (str * compact_method))).
Context (stage_order : list (str * compact_method) -> list (str * compact_method)).
Context (group_order : list ((stage * full_class) * list compact_method) ->
                       list ((stage * full_class) * list compact_method)).

(* lib_serde.rs 28-38 *)
Definition group_methods (lib : method_lib) : list ((stage * full_class) * list compact_method) :=
  fold_left
    (fun groups '(s, methods) =>
       fold_left (fun groups '(_, cm) =>
                    hm_update group_key_eqb groups (s, cm_full_class cm) [] (fun v => v ++ [cm]))
         (stage_order methods) groups)
    (lib_order lib) [].

(* lib_serde.rs 27-79 *)
Definition lib_to_serde (lib : method_lib) : exec method_lib_serde :=
  mapM group_to_serde (group_order (group_methods lib)).
End Orders.

Section Lower.
Context (to_lowercase : str -> str).

(* lib_serde.rs 101-121: one method *)
Definition unpack_method (s : stage) (c : full_class) (methods : list (str * compact_method))
    (cs : compact_method_serde) : exec (list (str * compact_method)) :=
  title <- match cs_title cs with
           | Some t => Ret t
           | None => generate_title (cs_name cs) c s
           end;;
  Ret (hm_insert str_eqb methods (to_lowercase title)
         (CompactMethod (cs_name cs) title c (cs_place_notation cs))).

(** A loop which updates a state and may panic. *)
(* lib_serde.rs 86-122 *)
Fixpoint foldM {A B} (f : A -> B -> exec A) (l : list B) (a : A) : exec A :=
  match l with
  | [] => Ret a
  | x :: t => a' <- f a x;; foldM f t a'
  end.

(* lib_serde.rs 86-122: one group *)
Definition unpack_group (lib : method_lib) (g : method_group) : exec method_lib :=
  s <- stage_new (g_stage g);;
  cl <- from_class_id (g_class_id g);;
  let c := FullClass (g_is_jump g) (g_is_little g) (g_is_differential g) cl in
  let method_map := match hm_get Nat.eqb lib s with Some m => m | None => [] end in
  method_map' <- foldM (unpack_method s c) (g_methods g) method_map;;
  Ret (hm_insert Nat.eqb lib s method_map').

(* lib_serde.rs 82-127 *)
Definition lib_from_serde (m : method_lib_serde) : exec method_lib := foldM unpack_group m [].
End Lower.
