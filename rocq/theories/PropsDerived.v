(** Property theorems C117: equality of changes, masks and regexes. *)

(* Generated from tools/props/Derived.src; the proofs are in DerivedThms.v. *)
From Verif Require Import Base Bell Spec Stage Row Utils SameStageVec Block PlaceNot Mask Music SpecVec SpecPn SpecMask ListFacts BellFacts RowFacts MulFacts
  GroupFacts PnFacts MaskFacts MaskFacts2 MusicFacts Derived DerivedFacts PnThms MaskThms LawsThms LawsMaskThms LawsRegexThms.
Local Open Scope list_scope.
From Verif Require Import DerivedThms.

(** C117: legal place notations are equal exactly when they have the same stage and the same transposition, exactly
    when they do the same to every row, and exactly when they do the same to any one row which you care to try. *)
Theorem C117_changes :
  forall p q, legal p -> legal q ->
    (pn_eqb p q = true <-> pn_stage p = pn_stage q /\ pn_transposition p = pn_transposition q) /\
    (pn_eqb p q = true <-> forall r, valid_row r -> pn_permute_new p r = pn_permute_new q r) /\
    (forall r, valid_row r -> length r = pn_stage p -> (pn_eqb p q = true <-> pn_permute_new p r = pn_permute_new q r)).
Proof. exact pf_C117_changes. Qed.
Print Assumptions C117_changes.

(** C117: blocks of legal changes are equal exactly when they ring the same rows, from any one start. *)
Theorem C117_blocks_of_changes :
  forall a b start s, a <> [] -> b <> [] -> Forall (fun pn => legal pn /\ pn_stage pn = s) a ->
    Forall (fun pn => legal pn /\ pn_stage pn = s) b -> valid_row start -> length start = s ->
    (pn_block_eqb a b = true <-> pn_block_to_rows a start = pn_block_to_rows b start).
Proof. exact pf_C117_blocks_of_changes. Qed.
Print Assumptions C117_blocks_of_changes.

(** C117: equal masks match the same rows.  Masks which match the same rows are equal, or else each of them leaves at
    most one place open, and both match one and the same row only.  The second case is real. *)
Theorem C117_masks :
  (forall a b, mask_eqb a b = true -> forall r, mask_matches a r = mask_matches b r) /\
  (forall a b, well_formed_mask a -> well_formed_mask b ->
     ((forall r, valid_row r -> (fits a r <-> fits b r)) <->
      mask_eqb a b = true \/
      (length (mask_unspecified_places a) <= 1 /\ length (mask_unspecified_places b) <= 1 /\
       exists r, valid_row r /\ fits a r /\ fits b r))) /\
  (forall a, well_formed_mask a -> length (mask_unspecified_places a) = 1 ->
     exists b, well_formed_mask b /\ mask_eqb a b = false /\ forall r, valid_row r -> (fits a r <-> fits b r)).
Proof. exact pf_C117_masks. Qed.
Print Assumptions C117_masks.

(** C117: regexes made from two patterns are equal exactly when the patterns describe the same lists of bells. *)
Theorem C117_regexes :
  forall es fs, exists es' fs', regex_from_vec es = Ret es' /\ regex_from_vec fs = Ret fs' /\
    (regex_eqb es' fs' = true <-> forall l, described es l <-> described fs l).
Proof. exact pf_C117_regexes. Qed.
Print Assumptions C117_regexes.

(** C117: what is fed to a hasher is the same exactly for equal values, and that of one value never begins with that
    of another. *)
Theorem C117_hashing :
  (forall p q l m, pn_feed p ++ l = pn_feed q ++ m <-> pn_eqb p q = true /\ l = m) /\
  (forall a b l m, pn_block_feed a ++ l = pn_block_feed b ++ m <-> pn_block_eqb a b = true /\ l = m) /\
  (forall a b l m, mask_feed a ++ l = mask_feed b ++ m <-> mask_eqb a b = true /\ l = m) /\
  (forall a b l m, regex_feed a ++ l = regex_feed b ++ m <-> regex_eqb a b = true /\ l = m).
Proof. exact pf_C117_hashing. Qed.
Print Assumptions C117_hashing.

Example C117_example :
  (exists p q r, pn_parse (s2l "4") 8 = Ret (Ok p) /\ pn_parse (s2l "14") 8 = Ret (Ok q) /\ pn_parse (s2l "18") 8 = Ret (Ok r) /\
     pn_eqb p q = true /\ pn_eqb p r = false /\ pn_feed p = [2; 0; 3; 8]) /\
  mask_eqb (mask_parse (s2l "1xx4xx")) (mask_parse (s2l "1..4.X")) = true /\
  mask_eqb (mask_parse (s2l "1xx4xx")) (mask_parse (s2l "1xx4x")) = false /\
  mask_unspecified_places (mask_parse (s2l "1xx4xx")) = [1; 2; 4; 5] /\
  (exists e f, regex_parse (s2l "*x1*") = Ret e /\ regex_parse (s2l ".*1*") = Ret f /\ regex_eqb e f = true /\ regex_feed e = [4; 1; 2; 0; 0; 2]).
Proof. splits; try reflexivity; repeat eexists; vm_compute; reflexivity. Qed.
