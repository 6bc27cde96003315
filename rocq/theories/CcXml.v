(** Model of /repo/src/method_lib/parse_cc_lib.rs, which reads the Central Council's XML format.

    At this commit the file does not compile (it is behind the feature cc_lib_gen): there is no
    conversion from [usize] to [Stage], and a [CompactMethod] is made without its field [title].
    The model is of the file with the two repairs which the types suggest: [.into()] is
    [Stage::new], and the field is a copy of the title.  Everything else is as written.  The
    reading of the XML text (crate minidom) is a parameter, and printing the date is left out. *)
From Verif Require Import Base Bell Stage Class Library.
Local Open Scope list_scope.

(** [minidom::Element]: a name, a namespace, attributes, and nodes, which are elements or texts *)
(* parse_cc_lib.rs 9 *)
Inductive element :=
  Element (name namespace : str) (attrs : list (str * str)) (nodes : list (element + str)).

(* [Element::name], parse_cc_lib.rs 55, 66 *)
Definition el_name (e : element) : str := let 'Element n _ _ _ := e in n.
(* the namespace which [Element::get_child] looks at, parse_cc_lib.rs 58 *)
Definition el_namespace (e : element) : str := let 'Element _ ns _ _ := e in ns.
(* what [Element::attr] searches, parse_cc_lib.rs 19, 109, 110 *)
Definition el_attrs (e : element) : list (str * str) := let 'Element _ _ a _ := e in a.
(* what [Element::children] and [Element::text] go through, parse_cc_lib.rs 55, 71 *)
Definition el_nodes (e : element) : list (element + str) := let 'Element _ _ _ l := e in l.

(* [Element::attr], parse_cc_lib.rs 19, 109, 110 *)
Definition el_attr (e : element) (name : str) : option str := hm_get str_eqb (el_attrs e) name.

(* [Element::children], parse_cc_lib.rs 55, 66 *)
Fixpoint only_elements (l : list (element + str)) : list element :=
  match l with
  | [] => []
  | inl e :: t => e :: only_elements t
  | inr _ :: t => only_elements t
  end.
(* parse_cc_lib.rs 55, 66 *)
Definition el_children (e : element) : list element := only_elements (el_nodes e).

(* [Element::text], parse_cc_lib.rs 71, 75, 79, 101, 111: the texts right under the element, joined *)
Definition el_text (e : element) : str :=
  fold_left (fun acc n => match n with inl _ => acc | inr t => acc ++ t end) (el_nodes e) [].

(* parse_cc_lib.rs 11 *)
Definition NAMESPACE : str := s2l "http://www.cccbr.org.uk/methods/schemas/2007/05/methods".

(* [Element::get_child(name, NAMESPACE)], parse_cc_lib.rs 58, 69, 73, 77, 99, 107: the first one *)
Definition get_child (e : element) (name : str) : option element :=
  find (fun c => str_eqb (el_name c) name && str_eqb (el_namespace c) NAMESPACE) (el_children e).

(* [str::parse::<usize>], parse_cc_lib.rs 102: digits, and no more than 64 bits *)
Fixpoint parse_digits (acc : N) (t : str) : option N :=
  match t with
  | [] => Some acc
  | c :: t' =>
      if (48 <=? c)%N && (c <=? 57)%N then
        let acc' := (acc * 10 + (c - 48))%N in
        if (acc' <? 2 ^ 64)%N then parse_digits acc' t' else None
      else None
  end.
(* parse_cc_lib.rs 102: one plus sign may come first *)
Definition parse_usize (t : str) : option N :=
  match t with
  | [] => None
  | c :: t' =>
      if (c =? 43)%N then match t' with [] => None | _ => parse_digits 0 t' end else parse_digits 0 t
  end.

(* parse_cc_lib.rs 111-126 *)
Definition class_of_word (t : str) : exec class :=
  if str_eqb t (s2l "") then Ret Principle
  else if str_eqb t (s2l "Place") then Ret Place
  else if str_eqb t (s2l "Bob") then Ret Bob
  else if str_eqb t (s2l "Treble Bob") then Ret TrebleBob
  else if str_eqb t (s2l "Delight") then Ret Delight
  else if str_eqb t (s2l "Surprise") then Ret Surprise
  else if str_eqb t (s2l "Treble Place") then Ret TreblePlace
  else if str_eqb t (s2l "Alliance") then Ret Alliance
  else if str_eqb t (s2l "Hybrid") then Ret Hybrid
  else Panic.

(* parse_cc_lib.rs 109, 110: [attr(name) == Some("true")] *)
Definition attr_is_true (e : element) (name : str) : bool :=
  match el_attr e name with Some v => str_eqb v (s2l "true") | None => false end.

(* parse_cc_lib.rs 97-132; [.into()] (104) read as [Stage::new] *)
Definition read_properties (properties : element) : exec (stage * full_class) :=
  stage_elem <- unwrap (get_child properties (s2l "stage"));;
  num_bells <- unwrap (parse_usize (el_text stage_elem));;
  s <- stage_new (N.to_nat num_bells);;
  classification_elem <- unwrap (get_child properties (s2l "classification"));;
  let is_little := attr_is_true classification_elem (s2l "little") in
  let is_differential := attr_is_true classification_elem (s2l "differential") in
  c <- class_of_word (el_text classification_elem);;
  Ret (s, FullClass false is_little is_differential c).

(* parse_cc_lib.rs 66-90: one method; the missing field [title] (84-88) is a copy of the title *)
Definition read_method (c : full_class) (method_map : list (str * compact_method)) (m : element)
  : exec (list (str * compact_method)) :=
  title <- unwrap (get_child m (s2l "title"));;
  name <- unwrap (get_child m (s2l "name"));;
  place_notation <- unwrap (get_child m (s2l "notation"));;
  Ret (hm_insert str_eqb method_map (el_text title)
         (CompactMethod (el_text name) (el_text title) c (el_text place_notation))).

(* parse_cc_lib.rs 55-91: one set of methods *)
Definition read_method_set (methods : method_lib) (method_set : element) : exec method_lib :=
  properties <- unwrap (get_child method_set (s2l "properties"));;
  '(s, c) <- read_properties properties;;
  let method_map := match hm_get Nat.eqb methods s with Some m => m | None => [] end in
  method_map' <- foldM (read_method c)
    (filter (fun e => str_eqb (el_name e) (s2l "method")) (el_children method_set)) method_map;;
  Ret (hm_insert Nat.eqb methods s method_map').

(* parse_cc_lib.rs 51-94 *)
Definition read_methods (root : element) : exec method_lib :=
  foldM read_method_set (filter (fun e => str_eqb (el_name e) (s2l "methodSet")) (el_children root)) [].

Section Xml.
(** [str::parse::<Element>] of the crate minidom *)
Context (parse_xml : str -> option element).

(* parse_cc_lib.rs 15-25 *)
Definition parse_cc_lib (xml : str) : exec method_lib :=
  root <- unwrap (parse_xml xml);;
  unwrap (el_attr root (s2l "date"));;;
  read_methods root.
End Xml.
