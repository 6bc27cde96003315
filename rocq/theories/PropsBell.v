(** Property theorems C01 to C03: bells and stages. *)

(* Generated from tools/props/Bell.src; the proofs are in BellThms.v. *)
From Verif Require Import Base Bell Stage Spec ListFacts BellFacts.
Local Open Scope list_scope.
From Verif Require Import BellThms.

(** C01: [Bell::from_name] and [Bell::to_char] are inverse to each other, exactly the bells of
    index 0..=32 have a one-character name, names are distinct, and exactly the digits and the
    capitals other than I, O and X are names. *)
Theorem C01_bell_names_are_a_bijection :
  (forall c b, bell_from_name c = Some b <-> bell_to_char b = Some c) /\
  (forall b, (exists c, bell_to_char b = Some c) <-> b <= 32) /\
  (forall a b c, bell_to_char a = Some c -> bell_to_char b = Some c -> a = b) /\
  (forall c, (exists b, bell_from_name c = Some b) <-> is_bell_name_char c).
Proof. exact pf_C01_bell_names_are_a_bijection. Qed.
Print Assumptions C01_bell_names_are_a_bijection.

(** C01, the order of the names: 1..9, then 0, E, T, then the other letters in alphabetical
    order. *)
Theorem C01_bell_names_are_in_ringing_order :
  (forall k, 1 <= k <= 9 -> bell_to_char (k - 1) = Some (48 + N.of_nat k)%N) /\
  bell_to_char 9 = Some 48%N /\ bell_to_char 10 = Some 69%N /\ bell_to_char 11 = Some 84%N /\
  (forall a b ca cb, 12 <= a -> a < b -> bell_to_char a = Some ca -> bell_to_char b = Some cb ->
    (ca < cb)%N).
Proof. exact pf_C01_bell_names_are_in_ringing_order. Qed.
Print Assumptions C01_bell_names_are_in_ringing_order.

Example C01_witness :
  bell_from_name 69%N = Some 10 /\ bell_from_name 88%N = None /\ bell_to_char 33 = None.
Proof. repeat split. Qed.

(** C02: numbers are 1-based indices and only 0 is refused; the tenor is the largest bell of the
    stage and the bells of a stage are 0, 1, .., s-1 in order. *)
Theorem C02_bell_numbers_and_tenor :
  (forall n, bell_from_number n = None <-> n = 0) /\
  (forall n b, bell_from_number n = Some b <-> bell_number b = n) /\
  (forall b, bell_number b = b + 1) /\
  (forall s i b, nth_error (stage_bells s) i = Some b <-> i < s /\ b = i) /\
  (forall s, 0 < s -> exists b, bell_tenor s = Ret b /\ stage_tenor s = Ret b /\
     In b (stage_bells s) /\ forall b', In b' (stage_bells s) -> b' <= b).
Proof. exact pf_C02_bell_numbers_and_tenor. Qed.
Print Assumptions C02_bell_numbers_and_tenor.

(** C02, display names: the one-character name when there is one, the decimal number between
    angle brackets otherwise; different bells display differently. *)
Theorem C02_display_names_are_unambiguous :
  (forall b, b <= 32 -> exists c, bell_to_char b = Some c /\ bell_name b = [c]) /\
  (forall b, 33 <= b -> exists t, bell_name b = [60%N] ++ t ++ [62%N] /\ is_decimal t /\
                                  decimal_value t = N.of_nat (b + 1)) /\
  (forall a b, bell_name a = bell_name b -> a = b).
Proof. exact pf_C02_display_names_are_unambiguous. Qed.
Print Assumptions C02_display_names_are_unambiguous.

(** C02, arithmetic: adding goes up by as many bells and subtracting down, each undoing the other;
    going below the treble panics (in builds with overflow checks; the others are in C78). *)
Theorem C02_bell_arithmetic :
  forall b n m,
    bell_number (bell_add b n) = bell_number b + n /\
    bell_add (bell_add b n) m = bell_add b (n + m) /\
    bell_sub (bell_add b n) n = Ret b /\
    (forall a, bell_sub b n = Ret a <-> bell_add a n = b) /\
    (bell_sub b n = Panic <-> bell_number b <= n) /\
    bell_number TREBLE = 1 /\ TREBLE <= b.
Proof. exact pf_C02_bell_arithmetic. Qed.
Print Assumptions C02_bell_arithmetic.

Example C02_witness :
  bell_from_number 0 = None /\ bell_from_number 12 = Some 11 /\ bell_tenor 8 = Ret 7 /\
  bell_name 11 = s2l "T" /\ bell_name 33 = s2l "<34>".
Proof. repeat split. Qed.

(** C03: [Stage::try_from] and [Stage::new] refuse exactly 0 (an error and a panic). *)
Theorem C03_stages_are_never_zero :
  (forall n s, stage_try_from n = Ok s <-> s = n /\ n <> 0) /\
  stage_try_from 0 = Err ZeroStageError /\
  (forall n, n <> 0 -> stage_new n = Ret n) /\ stage_new 0 = Panic.
Proof. exact pf_C03_stages_are_never_zero. Qed.
Print Assumptions C03_stages_are_never_zero.

(** C03: the bells of a stage are the first ones, in order and each once; its tenor is the last of
    them; a stage is even exactly when its number of bells is. *)
Theorem C03_bells_of_a_stage :
  forall s, 0 < s ->
    length (stage_bells s) = s /\ (forall i, i < s -> nth_error (stage_bells s) i = Some i) /\
    (exists t, stage_tenor s = Ret t /\ nth_error (stage_bells s) (s - 1) = Some t) /\
    (stage_is_even s = true <-> Nat.Even s).
Proof. exact pf_C03_bells_of_a_stage. Qed.
Print Assumptions C03_bells_of_a_stage.

(** C03, names: exactly 1 to 22 bells have a name; the lower-cased name is looked up to the stage
    itself, and nothing else is accepted. *)
Theorem C03_stage_names_round_trip :
  (forall s, (exists n, stage_name s = Some n) <-> 1 <= s <= 22) /\
  (forall t s, stage_from_lower_case_name t = Some s <->
               exists n, stage_name s = Some n /\ t = map ascii_lower n) /\
  (forall s1 s2 n, stage_name s1 = Some n -> stage_name s2 = Some n -> s1 = s2) /\
  (forall s n, stage_name s = Some n -> stage_display s = n) /\
  (forall s, ~ 1 <= s <= 22 -> exists t, stage_display s = t ++ s2l " bells" /\ is_decimal t /\
                                 decimal_value t = N.of_nat s).
Proof. exact pf_C03_stage_names_round_trip. Qed.
Print Assumptions C03_stage_names_round_trip.

(** C03, the names: the stage of [s] bells has the [s]-th name of the list of stage names. *)
Theorem C03_stage_names :
  forall s n, stage_name s = Some n <-> 0 < s /\ nth_error names_of_stages (s - 1) = Some n.
Proof. exact pf_C03_stage_names. Qed.
Print Assumptions C03_stage_names.

Example C03_witness :
  stage_from_lower_case_name (s2l "minor") = Some 6 /\
  stage_from_lower_case_name (s2l "Minor") = None /\ stage_name 22 = Some (s2l "Twenty-two") /\
  stage_display 23 = s2l "23 bells".
Proof. repeat split. Qed.
