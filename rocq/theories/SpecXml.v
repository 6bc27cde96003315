(** What a file in the Central Council's XML format says, as described in
    /repo/src/method_lib/parse_cc_lib.rs 27-50, independent of how it is read. *)
From Verif Require Import Base Bell Stage Class Library SpecJson CcXml.
Local Open Scope list_scope.

Definition council : list N := s2l "http://www.cccbr.org.uk/methods/schemas/2007/05/methods".

(** [c] is the first element under [e] with this name and the Council's namespace. *)
Definition first_child (e : element) (name : list N) (c : element) : Prop :=
  let wanted n := exists attrs nodes, n = inl (Element name council attrs nodes) in
  exists before after, el_nodes e = before ++ inl c :: after /\ wanted (inl c) /\
    forall n, In n before -> ~ wanted n.

(** The texts right under an element, one after the other *)
Definition words (e : element) : list N :=
  flat_map (fun n => match n with inl _ => [] | inr t => t end) (el_nodes e).

(** The elements right under [e] which have this name, in order *)
Definition named (name : list N) (e : element) : list element :=
  flat_map (fun n => match n with
                     | inl c => if list_eq_dec N.eq_dec (el_name c) name then [c] else []
                     | inr _ => []
                     end) (el_nodes e).

(** The attribute [name] is set to [value] (XML allows no second attribute of the name). *)
Definition attribute (e : element) (name value : list N) : Prop :=
  exists before after, el_attrs e = before ++ (name, value) :: after /\ ~ In name (map fst before).

(** The text is a number of 64 bits; a plus sign may come first. *)
Definition number (t : list N) (n : nat) : Prop :=
  exists ds, (t = ds \/ t = 43%N :: ds) /\ digits ds /\ decimal ds (N.of_nat n) /\ (N.of_nat n < 2 ^ 64)%N.

Definition class_names : list (list N * class) :=
  [(s2l "", Principle); (s2l "Place", Place); (s2l "Bob", Bob); (s2l "Treble Bob", TrebleBob);
   (s2l "Delight", Delight); (s2l "Surprise", Surprise); (s2l "Treble Place", TreblePlace);
   (s2l "Alliance", Alliance); (s2l "Hybrid", Hybrid)].

(** The properties of a set of methods: its stage and its class *)
Definition properties_say (p : element) (s : nat) (c : full_class) : Prop :=
  exists st cl, first_child p (s2l "stage") st /\ number (words st) s /\ 0 < s /\
    first_child p (s2l "classification") cl /\ In (words cl, fc_class c) class_names /\
    is_jump c = false /\
    (is_little c = true <-> attribute cl (s2l "little") (s2l "true")) /\
    (is_differential c = true <-> attribute cl (s2l "differential") (s2l "true")).

Definition method_says (c : full_class) (m : element) (cm : compact_method) : Prop :=
  cm_full_class cm = c /\
  (exists e, first_child m (s2l "title") e /\ words e = cm_title cm) /\
  (exists e, first_child m (s2l "name") e /\ words e = cm_name cm) /\
  (exists e, first_child m (s2l "notation") e /\ words e = cm_place_notation cm).

Definition set_says (ms : element) (said : nat * list compact_method) : Prop :=
  exists p c, first_child ms (s2l "properties") p /\ properties_say p (fst said) c /\
    Forall2 (method_says c) (named (s2l "method") ms) (snd said).

(** The whole document: the sets of methods in order, each with its stage and its methods *)
Definition says (root : element) (sets : list (nat * list compact_method)) : Prop :=
  (exists date, attribute root (s2l "date") date) /\
  Forall2 set_says (named (s2l "methodSet") root) sets.

(** All methods in order, each with its stage *)
Definition listed (sets : list (nat * list compact_method)) : list (nat * compact_method) :=
  flat_map (fun '(s, cms) => map (pair s) cms) sets.

(** The document lists [cm] on stage [s], and no later method on this stage with the same title. *)
Definition lists_last (sets : list (nat * list compact_method)) (s : nat) (cm : compact_method) : Prop :=
  exists before after, listed sets = before ++ (s, cm) :: after /\
    forall cm', In (s, cm') after -> cm_title cm' <> cm_title cm.
