(** Property theorems C36 to C45 (place notation). *)
(*IMPORTS*)
From Verif Require Import Base Bell Stage Row Utils SameStageVec Block PlaceNot Spec SpecVec SpecBlock SpecPn ListFacts
  BellFacts RowFacts MulFacts SsvFacts BlockFacts PnFacts PnFacts2 PnFacts3.
Local Open Scope list_scope.
(*BODY*)
(** C36: a text other than a lone cross, naming the places [w], is accepted exactly when [w] is
    non-empty, without repetition, within the stage, and every gap between consecutive places is
    even or exactly one; the result has the places of [place_made], and is a legal change. *)
Theorem C36_parse_places :
  forall t s w, 0 < s -> ~ cross_text t -> written t w ->
    (unambiguous s w <-> exists pn, pn_parse t s = Ret (Ok pn)) /\
    forall pn, pn_parse t s = Ret (Ok pn) ->
      pn_stage pn = s /\ legal pn /\ (forall p, In p (pn_places pn) <-> place_made s w p).
Proof.
  intros t s w Hs C W. destruct (pn_parse_slice t s w Hs C W) as [(pn & E & E1 & E2 & E3 & U)|(e & E & _ & U)]; rewrite E.
  - split; [split; eauto|]. intros pn' X. injection X as <-. splits; auto. split; rewrite E1; auto.
  - split; [split; [tauto|intros (pn & X); discriminate]|]. intros pn X. discriminate.
Qed.

(** C36: a lone cross is accepted exactly on even stages, and has no places. *)
Theorem C36_parse_cross :
  forall t s, 0 < s -> cross_text t ->
    (Nat.Even s -> pn_parse t s = Ret (Ok (PlaceNot [] s)) /\ legal (PlaceNot [] s)) /\
    (Nat.Odd s -> pn_parse t s = Ret (Err (OddStageCross s))).
Proof.
  intros t s Hs C. rewrite pn_parse_cross by auto. split; intros E.
  - apply even_mod in E. rewrite E. split; auto. apply even_cross_legal; auto.
  - apply odd_mod in E. rewrite E. auto.
Qed.

(** C36: the places of a legal place notation are strictly ascending and within the stage. *)
Theorem C36_places_ascend :
  forall pn, legal pn -> forall i p, nth_error (pn_places pn) i = Some p ->
    p < pn_stage pn /\ forall j q, i < j -> nth_error (pn_places pn) j = Some q -> p < q.
Proof.
  intros pn [Hs L] i p E. split.
  - apply nth_error_In in E. apply (legal_In _ _ _ _ L) in E. lia.
  - intros j q Hij Eq. pose proof (legal_sorted _ _ _ L) as Sg. clear L.
    revert i j E Eq Hij. induction Sg as [|x l Sg IH F]; intros i j E Eq Hij; [destruct i; discriminate|].
    destruct j as [|j]; [lia|]. cbn in Eq. destruct i as [|i]; cbn in E.
    + injection E as ->. rewrite Forall_forall in F. apply F. eapply nth_error_In; eauto.
    + apply (IH i j); auto. lia.
Qed.

Example C36_witness :
  ~ cross_text (s2l "4") /\ written (s2l "4") [3] /\ unambiguous 8 [3] /\
  pn_parse (s2l "4") 8 = Ret (Ok (PlaceNot [0; 3] 8)) /\ legal (PlaceNot [0; 3] 8) /\
  place_made 8 [3] 0 /\ pn_parse (s2l "146") 8 = Ret (Ok (PlaceNot [0; 3; 4; 5] 8)) /\
  pn_parse (s2l "X") 8 = Ret (Ok (PlaceNot [] 8)) /\ pn_parse (s2l "3") 7 = Ret (Ok (PlaceNot [2] 7)).
Proof.
  assert (W : written (s2l "4") [3]) by (apply written_filter; vm_compute; reflexivity).
  assert (C : ~ cross_text (s2l "4")) by (intros [K|[K|K]]; discriminate).
  pose proof (pf_C36_parse_places (s2l "4") 8 [3] ltac:(lia) C W) as [U P].
  assert (E : pn_parse (s2l "4") 8 = Ret (Ok (PlaceNot [0; 3] 8))) by (vm_compute; reflexivity).
  splits; auto; try (vm_compute; reflexivity).
  - apply U. eauto.
  - apply P in E. tauto.
  - apply P in E. apply E. left; auto.
Qed.

(** C37: parsing never panics, and every error tells the truth: a cross error only for a cross on an
    odd stage; no places only when no bell is named; the place out of stage is the largest written
    and is out of stage; the duplicate place is written twice; the two ambiguous places are written
    with no other place between them, and at least three, and an odd number, of places between. *)
Theorem C37_errors_are_true :
  forall t s, 0 < s -> exists r, pn_parse t s = Ret r /\
    forall e w, r = Err e -> written t w ->
      match e with
      | OddStageCross s' => s' = s /\ Nat.Odd s /\ cross_text t
      | NoPlacesGiven => ~ cross_text t /\ w = []
      | PlaceOutOfStage p s' => s' = s /\ In p w /\ s <= p /\ (forall q, In q w -> q <= p)
      | DuplicatePlace p => exists l1 l2 l3, w = l1 ++ p :: l2 ++ p :: l3
      | AmbiguousPlacesBetween p q => consecutive w p q /\ 3 <= q - p - 1 /\ Nat.Odd (q - p - 1)
      end.
Proof.
  intros t s Hs. destruct (pn_parse_total t s Hs) as [r E]. exists r. split; auto. intros e w -> W.
  assert (D : cross_text t \/ ~ cross_text t).
  { destruct ((byte_len t =? 1) && match t with c :: _ => is_cm_cross (char_meaning_of c) | [] => false end) eqn:B.
    - left. apply cross_test; auto.
    - right. intros C. apply cross_test in C. congruence. }
  destruct D as [C|C].
  - rewrite pn_parse_cross in E by auto. destruct (Nat.eqb_spec (s mod 2) 0) as [Z|Z]; [discriminate|]. injection E as <-.
    splits; auto. apply odd_mod. pose proof (Nat.mod_upper_bound s 2). lia.
  - destruct (pn_parse_slice t s w Hs C W) as [(pn & E' & _)|(e' & E' & H & _)]; rewrite E in E'; [discriminate|].
    injection E' as <-. destruct e; cbn in H; auto; try tauto.
Qed.

(** C37: conversely, with nothing else wrong each mistake is reported. *)
Theorem C37_mistakes_are_reported :
  forall t s w, 0 < s -> ~ cross_text t -> written t w ->
    (w = [] -> pn_parse t s = Ret (Err NoPlacesGiven)) /\
    (forall p, In p w -> s <= p -> (forall q, In q w -> q <= p) ->
       pn_parse t s = Ret (Err (PlaceOutOfStage p s))) /\
    ((forall p, In p w -> p < s) -> ~ unambiguous s w -> w <> [] ->
       exists e, pn_parse t s = Ret (Err e) /\
         match e with DuplicatePlace _ | AmbiguousPlacesBetween _ _ => True | _ => False end).
Proof.
  intros t s w Hs C W. assert (W' := proj1 (written_filter t w) W). splits.
  - intros ->. rewrite pn_parse_places by auto. rewrite <- W'. reflexivity.
  - intros p I L M. rewrite pn_parse_places by auto. rewrite <- W'. unfold from_sorted_slice.
    assert (I' : In p (sort_unstable w)) by (eapply Permutation_in; [apply Permutation_sym, sort_perm|auto]).
    destruct (last_place_cases (sort_unstable w)) as [[E _]|(l & x & El & E)]; [rewrite E in I'; destruct I'|].
    rewrite E. assert (x = p).
    { pose proof (sort_sorted w) as Sg. rewrite El in Sg, I'. pose proof (sorted_snoc_le _ _ _ Sg I').
      enough (x <= p) by lia. apply M. eapply Permutation_in; [apply sort_perm|]. rewrite El. apply in_or_app; right; left; auto. }
    subst x. rewrite (proj2 (Nat.leb_le _ _)) by auto. reflexivity.
  - intros B U N. destruct (pn_parse_slice t s w Hs C W) as [(pn & _ & _ & _ & _ & K)|(e & E & H & _)]; [tauto|].
    exists e. split; auto. destruct e; cbn in H; auto. destruct H as (_ & H1 & H2 & _). apply B in H1. lia.
Qed.

Example C37_witness :
  pn_parse (s2l "15") 8 = Ret (Err (AmbiguousPlacesBetween 0 4)) /\
  pn_parse (s2l "119") 8 = Ret (Err (PlaceOutOfStage 8 8)) /\
  pn_parse (s2l "x") 7 = Ret (Err (OddStageCross 7)) /\
  pn_parse (s2l "4114") 8 = Ret (Err (DuplicatePlace 0)) /\
  pn_parse (s2l "xx") 8 = Ret (Err NoPlacesGiven) /\ pn_parse (s2l "") 8 = Ret (Err NoPlacesGiven).
Proof. vm_compute. splits; reflexivity. Qed.

(** C38: applying a legal place notation to a row of its stage never panics; the bells in the places
    made stay, all others exchange in adjacent pairs, and the result is a valid row; both ways of
    applying it agree. *)
Theorem C38_permute :
  forall pn r, legal pn -> valid_row r -> length r = pn_stage pn ->
    exists r', pn_permute pn r = Ret (r', Ok tt) /\ pn_permute_new pn r = Ret (Ok r') /\
      rings (pn_places pn) 0 r r' /\ valid_row r' /\ length r' = length r.
Proof. exact pn_permute_ok. Qed.

(** C38: on a row of another stage both return the error, and the row stays as it was. *)
Theorem C38_permute_wrong_stage :
  forall pn r, valid_row r -> length r <> pn_stage pn ->
    pn_permute pn r = Ret (r, Err (IncompatibleStages (length r) (pn_stage pn))) /\
    pn_permute_new pn r = Ret (Err (IncompatibleStages (length r) (pn_stage pn))).
Proof. exact pn_permute_err. Qed.

(** C38: every place notation which parses can be applied to every row of the stage. *)
Theorem C38_parsed_can_be_applied :
  forall t s pn r, 0 < s -> pn_parse t s = Ret (Ok pn) -> valid_row r -> length r = s ->
    exists r', pn_permute pn r = Ret (r', Ok tt) /\ rings (pn_places pn) 0 r r' /\ valid_row r'.
Proof.
  intros t s pn r Hs E V L. apply pn_parse_legal in E as [E1 E2]; auto.
  destruct (pn_permute_ok pn r E1 V ltac:(congruence)) as (r' & H1 & _ & H2 & H3 & _). eauto.
Qed.

Example C38_witness :
  legal (PlaceNot [0; 3] 8) /\ valid_row [7; 6; 5; 4; 3; 2; 1; 0] /\
  pn_permute (PlaceNot [0; 3] 8) [7; 6; 5; 4; 3; 2; 1; 0] = Ret ([7; 5; 6; 4; 2; 3; 0; 1], Ok tt) /\
  pn_permute (PlaceNot [0; 3] 8) [1; 0; 2] = Ret ([1; 0; 2], Err (IncompatibleStages 3 8)).
Proof.
  splits; try (vm_compute; reflexivity); [|vr].
  apply (pn_parse_legal (s2l "4") 8); [lia|vm_compute; reflexivity].
Qed.

(** C39: the transposition of a place notation is a valid row and its own inverse; applying the place
    notation multiplies the row by it, and applying it twice gives the row back. *)
Theorem C39_transposition :
  forall pn, legal pn -> exists t, pn_transposition pn = Ret t /\
    valid_row t /\ length t = pn_stage pn /\
    composition t t (seq 0 (pn_stage pn)) /\ row_inv t = Ret t /\
    forall r, valid_row r -> length r = pn_stage pn ->
      exists r', pn_permute_new pn r = Ret (Ok r') /\ composition r t r' /\ row_mul r t = Ret r' /\
        pn_permute_new pn r' = Ret (Ok r).
Proof.
  intros pn L. destruct (pn_transposition_ok pn L) as (t & E & V & R). exists t.
  assert (I : rmul t t = row_rounds (pn_stage pn)) by (eapply rings_involution; [apply L|exact R]).
  splits; auto; try apply V.
  - rewrite <- rounds_seq, <- I. eapply composition_vrow; eauto.
  - rewrite row_inv_ok by apply V. f_equal. eapply (rmul_cancel_l (pn_stage pn) t); auto; [apply valid_rinv; auto|].
    rewrite (rmul_rinv_r (pn_stage pn)) by auto. auto.
  - intros r Vr Lr. assert (Vr' : vrow (pn_stage pn) r) by (split; auto).
    destruct (pn_permute_ok pn r L Vr Lr) as (r' & _ & E1 & E2 & E3 & E4). exists r'.
    assert (Er : r' = rmul r t) by (eapply rings_fun; [exact E2|eapply rings_rmul; eauto]).
    destruct (pn_permute_ok pn r' L E3 ltac:(congruence)) as (r2 & _ & F1 & F2 & _).
    splits; auto.
    + rewrite Er. eapply composition_vrow; eauto.
    + rewrite Er. eapply row_mul_ok; eauto.
    + rewrite F1. do 2 f_equal. eapply rings_fun; [exact F2|]. apply rings_sym; auto.
Qed.

Example C39_witness :
  legal (PlaceNot [0; 5] 6) /\ pn_transposition (PlaceNot [0; 5] 6) = Ret [0; 2; 1; 4; 3; 5].
Proof.
  split; [|vm_compute; reflexivity]. apply (pn_parse_legal (s2l "16") 6); [lia|vm_compute; reflexivity].
Qed.

(** C40: the place notation between two rows: it never panics, it is found exactly when there is a
    legal place notation leading from one to the other, and it is that one, which is unique. *)
Theorem C40_place_notation_between :
  forall r1 r2, valid_row r1 -> valid_row r2 -> exists o, pn_between r1 r2 = Ret o /\
    (forall pn, o = Some pn <->
       legal pn /\ length r1 = pn_stage pn /\ pn_permute_new pn r1 = Ret (Ok r2)) /\
    (o = None <-> forall pn, legal pn -> length r1 = pn_stage pn -> ~ rings (pn_places pn) 0 r1 r2).
Proof.
  intros r1 r2 V1 V2. destruct (pn_between_ok r1 r2 V1 V2) as (o & E & H). exists o. split; auto.
  assert (K : forall pn, legal pn -> length r1 = pn_stage pn -> (rings (pn_places pn) 0 r1 r2 <-> pn_permute_new pn r1 = Ret (Ok r2))).
  { intros pn L Ls. destruct (pn_permute_ok pn r1 L V1 Ls) as (r' & _ & E1 & E2 & _). rewrite E1. split.
    - intros R. do 2 f_equal. eapply rings_fun; eauto.
    - intros X. injection X as <-. auto. }
  split.
  - intros pn. rewrite H. split.
    + intros (H1 & H2 & H3). splits; auto. apply K; auto.
    + intros (H1 & H2 & H3). splits; auto. apply K; auto.
  - split.
    + intros -> pn L Ls R. enough (None = Some pn) by discriminate. apply H. auto.
    + intros N. destruct o as [pn|]; auto. exfalso. destruct (proj1 (H pn) eq_refl) as (H1 & H2 & H3). apply (N pn); auto.
Qed.

Example C40_witness :
  pn_between [0; 1; 2; 3; 4; 5] [1; 0; 2; 3; 5; 4] = Ret (Some (PlaceNot [2; 3] 6)) /\
  pn_between [0; 1; 2] [1; 2; 0] = Ret None /\ pn_between [0; 1; 2] [1; 0] = Ret None.
Proof. vm_compute. splits; reflexivity. Qed.

(** C41: parsing what is displayed for a legal place notation on up to 33 bells gives it back. *)
Theorem C41_display_round_trip :
  forall pn, legal pn -> pn_stage pn <= 33 -> pn_parse (pn_display pn) (pn_stage pn) = Ret (Ok pn).
Proof. exact pn_display_parse. Qed.

Example C41_witness :
  legal (PlaceNot [0; 11] 12) /\ pn_display (PlaceNot [0; 11] 12) = s2l "1T" /\ pn_display (PlaceNot [] 12) = s2l "-".
Proof.
  splits; try (vm_compute; reflexivity). apply (pn_parse_legal (s2l "1T") 12); [lia|vm_compute; reflexivity].
Qed.

(** C42: [contains] tells whether the bell in a place stays, [is_cross] whether none does, and
    [has_internal_places] whether a place other than the first and the last is made. *)
Theorem C42_queries :
  forall pn r r', legal pn -> valid_row r -> length r = pn_stage pn -> pn_permute_new pn r = Ret (Ok r') ->
    (forall p, p < pn_stage pn -> (pn_contains pn p = true <-> nth_error r' p = nth_error r p)) /\
    (forall p, pn_stage pn <= p -> pn_contains pn p = false) /\
    (pn_is_cross pn = true <-> forall p, p < pn_stage pn -> nth_error r' p <> nth_error r p) /\
    exists b, pn_has_internal_places pn = Ret b /\
      (b = true <-> exists p, 0 < p /\ p + 1 < pn_stage pn /\ nth_error r' p = nth_error r p).
Proof.
  intros pn r r' L V Lr E. destruct (pn_permute_ok pn r L V Lr) as (r2 & _ & E1 & R & _). rewrite E in E1. injection E1 as <-.
  pose proof (valid_row_NoDup _ V) as N.
  assert (St : forall p, p < pn_stage pn -> (nth_error r' p = nth_error r p <-> In p (pn_places pn))).
  { intros p Hp. apply (rings_stays _ 0 r r' p N R). congruence. }
  splits.
  - intros p Hp. rewrite St by auto. apply pn_contains_In.
  - intros p Hp. apply not_true_is_false. rewrite pn_contains_In. intros I. destruct L as [_ L]. apply (legal_In _ _ _ _ L) in I. lia.
  - unfold pn_is_cross. destruct (pn_places pn) as [|a l] eqn:Ep.
    + split; auto. intros _ p Hp K. apply St in K; auto.
    + split; [discriminate|]. intros K. exfalso. destruct L as [_ L].
      assert (Ia : In a (pn_places pn)) by (rewrite Ep; left; auto).
      assert (Ha : a < pn_stage pn) by (apply (legal_In _ _ _ _ L) in Ia; lia).
      apply (K a Ha). apply St; auto. rewrite <- Ep; auto.
  - destruct (has_internal_spec pn L) as (b & Eb & Hb). exists b. split; auto. rewrite Hb. split.
    + intros (p & H1 & H2 & H3). exists p. splits; auto; [lia|]. apply St; auto. lia.
    + intros (p & H1 & H2 & H3). exists p. splits; auto; [|lia]. apply St; auto. lia.
Qed.

Example C42_witness :
  legal (PlaceNot [0; 3; 6] 7) /\ pn_permute_new (PlaceNot [0; 3; 6] 7) (seq 0 7) = Ret (Ok [0; 2; 1; 3; 5; 4; 6]) /\
  pn_has_internal_places (PlaceNot [0; 3; 6] 7) = Ret true /\ pn_has_internal_places (PlaceNot [0; 5] 6) = Ret false /\
  pn_has_internal_places (PlaceNot [0] 1) = Ret false.
Proof.
  splits; try (vm_compute; reflexivity). apply (pn_parse_legal (s2l "147") 7); [lia|vm_compute; reflexivity].
Qed.

(** C43: parsing a block of place notation never panics, and returns exactly the changes which the
    text describes: a non-empty list is returned as it is, and no changes give the error for empty
    blocks; any text which describes no list of changes gives some other error. *)
Theorem C43_parse_block :
  forall t s, 0 < s -> exists r, pn_block_parse t s = Ret r /\
    (forall l, r = Ok l <-> l <> [] /\ block_changes s t l) /\
    (r = Err EmptyBlock <-> block_changes s t []) /\
    (forall l l', block_changes s t l -> block_changes s t l' -> l = l').
Proof.
  intros t s Hs. pose proof (block_changes_fun t s) as U.
  destruct (block_parse_cases t s Hs) as [(l & B & E)|(N & before & p & after & _ & K)].
  - eexists. split; [exact E|]. splits; auto.
    + intros l'. split.
      * intros X. destruct l; [discriminate|]. injection X as <-. split; auto. discriminate.
      * intros (H1 & H2). rewrite (U _ _ H2 B) in *. destruct l; [congruence|auto].
    + split.
      * destruct l; [auto|discriminate].
      * intros H. rewrite (U _ _ B H). reflexivity.
  - destruct K as [(x & c & y & E & H)|[(x & w & y & e & E & H)|(x & c & y & e & E & H)]]; eexists; (split; [exact E|]); splits; auto;
      try (intros l; split; [discriminate|intros (_ & B); exfalso; eapply N; eauto]);
      try (split; [discriminate|intros B; exfalso; eapply N; eauto]).
Qed.

(** C43: all changes of a parsed block are legal and of the stage asked for, and there is one. *)
Theorem C43_parsed_changes_are_legal :
  forall t s l, 0 < s -> pn_block_parse t s = Ret (Ok l) ->
    l <> [] /\ Forall (fun pn => legal pn /\ pn_stage pn = s) l.
Proof.
  intros t s l Hs E. destruct (pf_C43_parse_block t s Hs) as (r & E' & H & _). rewrite E in E'. injection E' as <-.
  destruct (proj1 (H l) eq_refl) as [N B]. split; auto. eapply block_changes_legal; eauto.
Qed.

(** C43: the text of a single part with a comma after it stands for the part and its mirror image. *)
Theorem C43_mirror :
  forall t s l, 0 < s -> ~ In comma t -> pn_block_parse t s = Ret (Ok l) ->
    (forall skip c y, t = skip ++ c :: y -> ~ is_plus_char c) ->
    pn_block_parse (t ++ [comma]) s = Ret (Ok (l ++ tl (rev l))).
Proof.
  intros t s l Hs C E P. destruct (pf_C43_parse_block t s Hs) as (r & E' & H & _). rewrite E in E'. injection E' as <-.
  destruct (proj1 (H l) eq_refl) as [N (parts & N1 & F1 & J & Pc)].
  assert (parts = [t]).
  { apply (join_unique parts [t]); auto; discriminate. }
  subst parts. inversion Pc as [|? asym l0 ? l1 P1 P2]; subst. inversion P2; subst. rewrite app_nil_r in *. cbn in *.
  destruct (pf_C43_parse_block (t ++ [comma]) s Hs) as (r & E2 & H2 & _). rewrite E2. f_equal. apply H2.
  inversion P1 as [? ? B|skip c t' ? Bs Pp B]; subst; [|exfalso; eapply P; eauto].
  split; [intros K; apply app_eq_nil in K as [K _]; auto|].
  exists [t; []]. splits; [discriminate| |reflexivity|].
  - constructor; auto.
  - assert (EE : l0 ++ tl (rev l0) = unfold_part false false l0 ++ unfold_part false false [] ++ []) by (cbn; rewrite !app_nil_r; reflexivity).
    rewrite EE. econstructor; [constructor; auto|]. econstructor; [constructor; constructor|]. constructor.
Qed.

Example C43_examples :
  pn_block_parse (s2l "-16-1236,+ 12.34") 6 =
    Ret (Ok [PlaceNot [] 6; PlaceNot [0; 5] 6; PlaceNot [] 6; PlaceNot [0; 1; 2; 5] 6; PlaceNot [] 6; PlaceNot [0; 5] 6; PlaceNot [] 6;
             PlaceNot [0; 1] 6; PlaceNot [2; 3] 6]) /\
  pn_block_parse (s2l "+-1") 5 = Ret (Err (PnError 1 2 (OddStageCross 5))) /\
  pn_block_parse (s2l "3.1,2") 3 = Ret (Ok [PlaceNot [2] 3; PlaceNot [0] 3; PlaceNot [2] 3; PlaceNot [0; 1; 2] 3]) /\
  pn_block_parse (s2l " . ") 6 = Ret (Err EmptyBlock).
Proof. vm_compute. splits; reflexivity. Qed.

(** C44: what the positions in errors are.  The error concerns a part of the text; with [o] the byte
    offset of this part, all positions are too large by [o], so they are right in the first part
    only; the end of the range of a word is one more than the end of the word.  (Claimed: positions
    in the whole text, and a range which is the word.) *)
Theorem C44_error_positions_partial :
  forall t s e, 0 < s -> pn_block_parse t s = Ret (Err e) -> e <> EmptyBlock ->
    exists before p after, part_of t before p after /\
    let o := byte_len before in
    match e with
    | PlusNotAtBlockStart i => exists x c y, misplaced_plus p x c y /\ i = o + byte_len (before ++ x)
    | PnError a b pe =>
        (exists x w y, bad_word s p x w y pe /\ a = o + byte_len (before ++ x) /\ b = o + byte_len (before ++ x ++ w) + 1) \/
        (exists x c y, bad_cross s p x c y pe /\ a = o + byte_len (before ++ x) /\ b = o + byte_len (before ++ x ++ [c]))
    | EmptyBlock => False
    end.
Proof.
  intros t s e Hs E NE. destruct (block_parse_cases t s Hs) as [(l & B & E')|(N & before & p & after & P & K)].
  - rewrite E in E'. destruct l; congruence.
  - exists before, p, after. split; auto. cbn zeta.
    destruct K as [(x & c & y & E' & H)|[(x & w & y & pe & E' & H)|(x & c & y & pe & E' & H)]]; rewrite E in E'; injection E' as ->.
    + exists x, c, y. rewrite blen_app. split; auto. lia.
    + left. exists x, w, y. rewrite !blen_app. splits; auto; lia.
    + right. exists x, c, y. rewrite !blen_app. splits; auto; try lia.
      destruct H as (_ & C & _). destruct C as [C|[C|C]]; injection C as ->; cbn; lia.
Qed.

(** C44: in a text without commas the index of a misplaced plus is right, and the range of a cross or
    of a word starts where it should. *)
Theorem C44_error_positions_single_part_partial :
  forall t s e, 0 < s -> ~ In comma t -> pn_block_parse t s = Ret (Err e) ->
    match e with
    | PlusNotAtBlockStart i => exists x c y, misplaced_plus t x c y /\ i = byte_len x
    | PnError a b pe =>
        (exists x w y, bad_word s t x w y pe /\ a = byte_len x /\ b = byte_len (x ++ w) + 1) \/
        (exists x c y, bad_cross s t x c y pe /\ a = byte_len x /\ b = byte_len (x ++ [c]))
    | EmptyBlock => block_changes s t []
    end.
Proof.
  intros t s e Hs C E. destruct e as [i|a b pe|].
  - destruct (pf_C44_error_positions_partial t s _ Hs E ltac:(discriminate)) as (before & p & after & (P1 & P2 & P3 & P4) & K).
    assert (before = []). { destruct P3 as [|(b' & ->)]; auto. exfalso. apply C. rewrite P1. apply in_or_app; left. apply in_or_app; right; left; auto. }
    assert (after = []). { destruct P4 as [|(b' & ->)]; auto. exfalso. apply C. rewrite P1. apply in_or_app; right. apply in_or_app; right; left; auto. }
    subst before after. cbn [app] in *. rewrite app_nil_r in P1. subst p. exact K.
  - destruct (pf_C44_error_positions_partial t s _ Hs E ltac:(discriminate)) as (before & p & after & (P1 & P2 & P3 & P4) & K).
    assert (before = []). { destruct P3 as [|(b' & ->)]; auto. exfalso. apply C. rewrite P1. apply in_or_app; left. apply in_or_app; right; left; auto. }
    assert (after = []). { destruct P4 as [|(b' & ->)]; auto. exfalso. apply C. rewrite P1. apply in_or_app; right. apply in_or_app; right; left; auto. }
    subst before after. cbn [app] in *. rewrite app_nil_r in P1. subst p. exact K.
  - destruct (pf_C43_parse_block t s Hs) as (r & E' & _ & H & _). rewrite E in E'. injection E' as <-. apply H. auto.
Qed.

(** C44 as claimed is false: after a comma the index of the plus is not the position of a plus, and
    the range of a word can end beyond the end of the text. *)
Theorem C44_error_positions_refuted :
  (pn_block_parse (s2l "-16,1+2") 6 = Ret (Err (PlusNotAtBlockStart 9)) /\ byte_len (s2l "-16,1+2") = 7) /\
  (pn_block_parse (s2l "119") 8 = Ret (Err (PnError 0 4 (PlaceOutOfStage 8 8))) /\ byte_len (s2l "119") = 3) /\
  (pn_block_parse (s2l "-.9.-") 8 = Ret (Err (PnError 2 4 (PlaceOutOfStage 8 8)))) /\
  (pn_block_parse (s2l "-,9") 8 = Ret (Err (PnError 4 6 (PlaceOutOfStage 8 8)))).
Proof. vm_compute. splits; reflexivity. Qed.

(** C45: a block of place notation is built from exactly the non-empty lists of one stage; otherwise
    the error names the first place notation of another stage. *)
Theorem C45_from_vec :
  forall pns,
    (forall l, pn_block_from_vec pns = Ok l <->
       l = pns /\ pns <> [] /\ forall p q, In p pns -> In q pns -> pn_stage p = pn_stage q) /\
    (forall i e, pn_block_from_vec pns = Err (PbIncompatibleStages i e) <->
       exists first pn, nth_error pns 0 = Some first /\ nth_error pns i = Some pn /\
         pn_stage pn <> pn_stage first /\ e = IncompatibleStages (pn_stage first) (pn_stage pn) /\
         forall j q, j < i -> nth_error pns j = Some q -> pn_stage q = pn_stage first) /\
    (pn_block_from_vec pns = Err PbEmptyBlock <-> pns = []).
Proof.
  intros pns.
  destruct pns as [|first rest].
  { cbn. splits.
    - intros l; split; [discriminate|]. intros (_ & K & _); congruence.
    - intros i e; split; [discriminate|]. intros (f & pn & K & _); discriminate.
    - split; auto. }
  pose proof (pn_block_from_vec_spec (first :: rest) ltac:(discriminate)) as H.
  destruct (pn_block_from_vec (first :: rest)) as [l|[i e|]] eqn:E.
  - destruct H as [-> H]. cbn [hd] in H. splits.
    + intros l'. split.
      * intros X; injection X as <-. splits; auto; [discriminate|]. intros p q Hp Hq. rewrite (H p Hp), (H q Hq). auto.
      * intros (-> & _); auto.
    + intros i e. split; [discriminate|]. intros (f & pn & F1 & F2 & F3 & _). exfalso. cbn in F1. injection F1 as <-.
      apply nth_error_In in F2. apply H in F2. congruence.
    + split; discriminate.
  - destruct H as (l1 & pn & l2 & f & H1 & H2 & H3 & H4 & H5 & H6 & H7). cbn [hd] in H4. subst f.
    assert (N : nth_error (first :: rest) i = Some pn).
    { rewrite H1, nth_error_app2 by lia. rewrite H2, Nat.sub_diag. reflexivity. }
    assert (B : forall j q, j < i -> nth_error (first :: rest) j = Some q -> pn_stage q = pn_stage first).
    { intros j q Hj Eq. rewrite H1, nth_error_app1 in Eq by lia. apply nth_error_In in Eq. auto. }
    splits.
    + intros l. split; [discriminate|]. intros (_ & _ & K). exfalso. apply H6. apply K; [|left; auto]. eapply nth_error_In; eauto.
    + intros i' e'. split.
      * intros X; injection X as <- <-. exists first, pn. splits; auto.
      * intros (f & q & F1 & F2 & F3 & F4 & F5). cbn in F1. injection F1 as <-.
        assert (i = i').
        { destruct (Nat.lt_trichotomy i i') as [K|[K|K]]; auto; exfalso.
          - apply H6. eapply F5; eauto.
          - apply F3. eapply B; eauto. }
        subst i'. rewrite N in F2. injection F2 as <-. subst e e'. reflexivity.
    + split; discriminate.
  - destruct H.
Qed.

(** C45: expanding the changes from a row of the same stage: the buffer holds the start row and the
    row after each change, and the last of these is the start times the product of the changes. *)
Theorem C45_to_rows :
  forall pns start s, pns <> [] -> Forall (fun pn => legal pn /\ pn_stage pn = s) pns ->
    valid_row start -> length start = s ->
    exists v rs last_row ts, pn_block_to_rows pns start = Ret (Ok v) /\ holds v s (start :: rs) /\
      length rs = length pns /\ rung start pns rs last_row /\ last (start :: rs) [] = last_row /\
      Forall2 (fun pn t => pn_transposition pn = Ret t) pns ts /\ is_product (start :: ts) last_row.
Proof.
  intros pns start s N F V L. unfold pn_block_to_rows. rewrite valid_row_stage by auto. cbn [bind].
  assert (Es : pn_block_stage pns = Ret s).
  { destruct pns as [|pn pns]; [congruence|]. inversion F as [|? ? [_ E] _]; unfold pn_block_stage. cbn. congruence. }
  rewrite Es. cbn [bind]. unfold test_err. rewrite L, Nat.eqb_refl.
  destruct (rep_from_row start V) as (v0 & E0 & R0). rewrite E0. cbn [bind]. rewrite L in R0.
  assert (Vs : vrow s start) by (split; auto).
  destruct (to_rows_loop_ok s pns F [start] v0 start R0 Vs) as (v & rs & r' & E1 & R1 & R2 & R3 & R4).
  rewrite E1. cbn [bind]. destruct (rung_product s start pns rs r' F Vs R2) as (ts & T1 & T2).
  exists v, rs, r', ts. splits; auto.
  - apply holds_rep. exact R1.
  - eapply rung_length; eauto.
  - eapply rung_last; eauto.
  - apply (T2 [start]). constructor.
Qed.

(** C45: a start row of another stage is reported. *)
Theorem C45_to_rows_wrong_stage :
  forall pn pns start, valid_row start -> length start <> pn_stage pn ->
    pn_block_to_rows (pn :: pns) start = Ret (Err (IncompatibleStages (length start) (pn_stage pn))).
Proof.
  intros pn pns start V L. unfold pn_block_to_rows. rewrite valid_row_stage by auto. cbn. unfold test_err.
  rewrite (proj2 (Nat.eqb_neq _ _) L). reflexivity.
Qed.

(** C45: as a block, the rows before the last get the default annotation, and the last is left over. *)
Theorem C45_to_block :
  forall A (d : A) pns start s, pns <> [] -> Forall (fun pn => legal pn /\ pn_stage pn = s) pns ->
    valid_row start -> length start = s ->
    exists b rs last_row, pn_block_to_block d pns start = Ret (Ok b) /\ rung start pns rs last_row /\
      block_holds b s (map (fun r => (r, d)) (removelast (start :: rs))) last_row /\
      (start = seq 0 s -> pn_block_to_block_from_rounds d pns = Ret b).
Proof.
  intros A d pns start s N F V L.
  destruct (pf_C45_to_rows pns start s N F V L) as (v & rs & r' & ts & E & H & Hl & R & Hr & _).
  apply holds_rep in H. destruct (with_default_ok s (start :: rs) v d H ltac:(discriminate)) as (b & E1 & E2).
  exists b, rs, r'. assert (E3 : pn_block_to_block d pns start = Ret (Ok b)).
  { unfold pn_block_to_block. rewrite E. cbn [bind]. rewrite E1. reflexivity. }
  splits; auto.
  - apply brep_holds. rewrite <- Hr. exact E2.
  - intros ->. unfold pn_block_to_block_from_rounds.
    assert (Es : pn_block_stage pns = Ret s).
    { destruct pns as [|pn pns]; [congruence|]. inversion F as [|? ? [_ Ep] _]. unfold pn_block_stage. cbn. congruence. }
    rewrite Es. cbn [bind]. rewrite rounds_seq, E3. reflexivity.
Qed.

Example C45_witness :
  exists l v b, pn_block_parse (s2l "-14,12") 4 = Ret (Ok l) /\
    pn_block_to_rows l [0; 1; 2; 3] = Ret (Ok v) /\
    ssv_rows v = Ret [[0; 1; 2; 3]; [1; 0; 3; 2]; [1; 3; 0; 2]; [3; 1; 2; 0]; [3; 1; 0; 2]] /\
    pn_block_to_block_from_rounds tt l = Ret b /\ block_leftover_row b = Ret [3; 1; 0; 2] /\
    pn_block_from_vec [PlaceNot [] 4; PlaceNot [0; 3] 4; PlaceNot [0] 3] = Err (PbIncompatibleStages 2 (IncompatibleStages 4 3)).
Proof. do 3 eexists. splits; vm_compute; reflexivity. Qed.
