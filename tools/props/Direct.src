(** Property theorems for small functions of the API used on their own: C15, C23, C30, C36, C44, C45, C67, C70, C71, C73. *)
(*IMPORTS*)
From Verif Require Import Utf8 Cache SpecCache Utf8Facts.
From Verif Require Import Base Bell Stage Parity Row Utils SameStageVec Block PlaceNot Mask Music Class Method Call Format Spec SpecVec SpecBlock SpecPn
  SpecMask SpecClass SpecMethod ListFacts BellFacts RowFacts MulFacts GroupFacts SsvFacts BlockFacts PnFacts PnFacts2 PnFacts3 ClassFacts ClassFacts2 ClassFacts3
  MethodFacts FormatFacts LawFacts DirectFacts.
From Verif Require Import RowThms BlockThms PnThms ClassThms MethodThms FormatThms.
Local Open Scope list_scope.
(*BODY*)

(** C15: [from_number] is the parity of the number, [zero_or_one] its remainder modulo two and [plus_or_minus]
    the sign; parities multiply as numbers are added, and as signs are multiplied. *)
Theorem C15_parities_of_numbers :
  (forall n, (parity_from_number n = Even <-> Nat.Even n) /\ (parity_from_number n = Odd <-> Nat.Odd n)) /\
  (forall n, parity_zero_or_one (parity_from_number n) = n mod 2) /\
  (forall p, parity_zero_or_one p < 2 /\ parity_from_number (parity_zero_or_one p) = p) /\
  (forall m n, parity_mul (parity_from_number m) (parity_from_number n) = parity_from_number (m + n)) /\
  (forall p, [parity_plus_or_minus p] = s2l "+" <-> p = Even) /\ (forall p, [parity_plus_or_minus p] = s2l "-" <-> p = Odd) /\
  (forall b, parity_from_is_odd b = Odd <-> b = true).
Proof.
  assert (K : forall n, (parity_from_number n = Even <-> Nat.Even n) /\ (parity_from_number n = Odd <-> Nat.Odd n)).
  { intros n. unfold parity_from_number, parity_from_is_odd. rewrite <- Nat.even_spec, <- Nat.odd_spec, <- Nat.negb_even.
    destruct (Nat.eqb_spec (n mod 2) 0) as [E|E]; cbn.
    - assert (Ev : Nat.even n = true) by (apply Nat.even_spec; exists (n / 2); pose proof (Nat.div_mod n 2 ltac:(lia)); lia).
      rewrite Ev. cbn. split; split; congruence.
    - assert (Ev : Nat.even n = false).
      { destruct (Nat.even n) eqn:Q; auto. apply Nat.even_spec in Q as (k & ->). rewrite Nat.mul_comm, Nat.mod_mul in E by lia. lia. }
      rewrite Ev. cbn. split; split; congruence. }
  assert (Z : forall n, parity_zero_or_one (parity_from_number n) = n mod 2).
  { intros n. pose proof (Nat.mod_upper_bound n 2 ltac:(lia)). unfold parity_from_number, parity_from_is_odd.
    destruct (Nat.eqb_spec (n mod 2) 0); cbn [negb parity_zero_or_one]; lia. }
  splits; auto.
  - intros []; cbn; split; auto.
  - intros m n. destruct (parity_from_number (m + n)) eqn:E; apply K in E; destruct (parity_from_number m) eqn:Em; apply K in Em;
      destruct (parity_from_number n) eqn:En; apply K in En; cbn; auto; exfalso;
      destruct E as (a & E), Em as (b & Em), En as (c & En); lia.
  - intros []; cbn; split; congruence.
  - intros []; cbn; split; congruence.
  - intros []; cbn; split; congruence.
Qed.

(** The documentation of [from_is_odd] ("Maps `true` to Even and `false` to Odd") says the opposite of its name. *)
Theorem C15_documentation_of_from_is_odd_refuted :
  ~ (parity_from_is_odd true = Even /\ parity_from_is_odd false = Odd).
Proof. intros [E _]. discriminate. Qed.

Example C15_parities_example :
  parity_from_number 1000 = Even /\ parity_from_number 47 = Odd /\ parity_zero_or_one Odd = 1 /\ parity_mul Odd Odd = Even.
Proof. splits; reflexivity. Qed.

(** C23: the buffer made from one row holds this row and nothing else. *)
Theorem C23_buffer_of_one_row :
  forall r, valid_row r -> exists v, ssv_from_row_buf r = Ret v /\ holds v (length r) [r].
Proof. intros r V. destruct (rep_from_row r V) as (v & E & R). exists v. split; auto. apply holds_rep; auto. Qed.

Example C23_one_row_example : exists v, ssv_from_row_buf [1; 2; 0] = Ret v /\ ssv_rows v = Ret [[1; 2; 0]].
Proof. eexists. split; vm_compute; reflexivity. Qed.

(** C30: mapping the annotations keeps the rows and the left-over row, and gives each row the image of its
    annotation; with indices, the image of its index and annotation. *)
Theorem C30_map_annots :
  forall A B (b : block A) s ars lo (f : A -> B) (g : nat -> A -> B), block_holds b s ars lo ->
    block_holds (block_map_annots b f) s (map (fun ra => (fst ra, f (snd ra))) ars) lo /\
    exists ars', block_holds (block_map_annots_with_index b g) s ars' lo /\ length ars' = length ars /\
      forall i r a, nth_error ars i = Some (r, a) -> nth_error ars' i = Some (r, g i a).
Proof.
  intros A B b s ars lo f g H. apply holds_brep in H. split.
  - apply brep_holds. split; cbn [blk_rows blk_annots block_map_annots].
    + rewrite map_map. cbn [fst]. apply H.
    + rewrite (proj2 H), !map_map. reflexivity.
  - eexists. split; [apply brep_holds; split; cbn [blk_rows blk_annots block_map_annots_with_index]|].
    + instantiate (1 := map (fun ira => (fst (snd ira), g (fst ira) (snd (snd ira)))) (combine (seq 0 (length ars)) ars)).
      rewrite map_map. cbn [fst]. assert (E : map (fun x => fst (snd x)) (combine (seq 0 (length ars)) ars) = map fst ars).
      { generalize 0. clear. induction ars as [|x ars IH]; intros k; cbn; auto. f_equal; auto. }
      rewrite E. apply H.
    + rewrite (proj2 H), map_map. cbn [snd]. unfold enumerate. generalize 0. clear.
      induction ars as [|x ars IH]; intros k; cbn; auto. f_equal; auto.
    + split; [rewrite map_length, combine_length, seq_length; lia|]. intros i r a E. rewrite nth_error_map.
      assert (Q : nth_error (combine (seq 0 (length ars)) ars) i = Some (i, (r, a))).
      { clear - E. change i with (0 + i) at 2. generalize 0. revert i E. induction ars as [|x ars IH]; intros [|i] E k; cbn in *; try discriminate.
        - injection E as ->. rewrite Nat.add_0_r. reflexivity.
        - rewrite (IH i E (S k)). do 2 f_equal. lia. }
      rewrite Q. reflexivity.
Qed.

Example C30_map_annots_example :
  exists b, block_build (BlockArg 3 [[0; 1; 2]; [1; 0; 2]; [1; 2; 0]] (fun i => i)) = Ret (Some b) /\
    block_annot_rows (block_map_annots b (fun i => i + 7)) = Ret [([0; 1; 2], 7); ([1; 0; 2], 8)] /\
    block_annot_rows (block_map_annots_with_index b (fun i a => i * 10 + a)) = Ret [([0; 1; 2], 0); ([1; 0; 2], 11)].
Proof. eexists. split; [vm_compute; reflexivity|]. split; vm_compute; reflexivity. Qed.

(** C36: the cross exists exactly on even stages, makes no place, is what each of its texts is read as, and exchanges
    the bells in pairs. *)
Theorem C36_cross :
  (forall s, pn_cross s = None <-> Nat.Odd s) /\
  (forall s pn, pn_cross s = Some pn -> 0 < s -> legal pn /\ pn_stage pn = s /\ pn_places pn = [] /\
     (forall t, cross_text t -> pn_parse t s = Ret (Ok pn)) /\
     (forall r r', valid_row r -> length r = s -> pn_permute_new pn r = Ret (Ok r') ->
        forall k, 2 * k + 1 < s -> nth_error r' (2 * k) = nth_error r (2 * k + 1) /\ nth_error r' (2 * k + 1) = nth_error r (2 * k))).
Proof.
  split.
  - intros s. unfold pn_cross. destruct (Nat.eqb_spec (s mod 2) 0) as [E|E].
    + split; [discriminate|]. intros (k & ->). rewrite Nat.mul_comm, Nat.add_comm, Nat.mod_add in E by lia. discriminate.
    + split; auto. intros _. exists (s / 2). pose proof (Nat.div_mod s 2 ltac:(lia)). pose proof (Nat.mod_upper_bound s 2 ltac:(lia)). lia.
  - intros s pn E Hs.
    assert (T : forall t, cross_text t -> pn_parse t s = Ret (Ok pn)).
    { intros t Ht. unfold pn_cross in E. destruct (s mod 2 =? 0) eqn:Q; [|discriminate]. injection E as <-.
      destruct Ht as [-> |[-> | ->]]; unfold pn_parse; cbn -[Nat.modulo Nat.eqb pn_cross]; unfold pn_cross; rewrite Q; reflexivity. }
    assert (L : legal pn) by (apply (pn_parse_legal (s2l "x") s); auto; apply T; left; reflexivity).
    assert (P : pn = PlaceNot [] s) by (unfold pn_cross in E; destruct (s mod 2 =? 0); congruence). subst pn.
    splits; auto. intros r r' V Lr Er k Hk.
    destruct (pf_C38_permute (PlaceNot [] s) r L V Lr) as (r1 & _ & E1 & R & _). rewrite Er in E1. injection E1 as <-.
    cbn [pn_places] in R.
    assert (G : forall i r r', rings [] i r r' -> forall k, 2 * k + 1 < length r ->
      nth_error r' (2 * k) = nth_error r (2 * k + 1) /\ nth_error r' (2 * k + 1) = nth_error r (2 * k)).
    { clear. intros i r r' R. induction R as [i|i b r r' I R IH|i a b r r' N1 N2 R IH]; intros k Hk; cbn [length] in Hk; [lia|destruct I|].
      destruct k as [|k]; [split; reflexivity|]. replace (2 * S k) with (S (S (2 * k))) by lia.
      replace (S (S (2 * k)) + 1) with (S (S (2 * k + 1))) by lia. cbn [nth_error]. apply IH. lia. }
    apply (G 0); auto. lia.
Qed.

Example C36_cross_example : exists pn, pn_cross 6 = Some pn /\ pn_permute_new pn [5; 0; 1; 2; 3; 4] = Ret (Ok [0; 5; 2; 1; 4; 3]) /\ pn_cross 7 = None.
Proof. eexists. splits; vm_compute; reflexivity. Qed.

(** C45: a block of changes accepted by [from_vec] says how many changes it has and the stage of each of them. *)
Theorem C45_length_and_stage :
  forall pns l, pn_block_from_vec pns = Ok l ->
    pn_block_len l = length pns /\ exists s, pn_block_stage l = Ret s /\ forall pn, In pn pns -> pn_stage pn = s.
Proof.
  intros pns l E. apply (proj1 (pf_C45_from_vec pns)) in E as (-> & Ne & St). split; [reflexivity|].
  destruct pns as [|p pns]; [congruence|]. exists (pn_stage p). split; [reflexivity|]. intros pn H. apply St; cbn; auto.
Qed.

Example C45_length_example : exists l, pn_block_from_vec [PlaceNot [0] 5; PlaceNot [2] 5] = Ok l /\ pn_block_len l = 2 /\ pn_block_stage l = Ret 5.
Proof. eexists. splits; vm_compute; reflexivity. Qed.

(** C67: the effective stage of a bob or single is the least (non-zero) number of bells such that each of its changes makes
    every place above it. *)
Theorem C67_effective_stage :
  forall pns s c, pns <> [] -> Forall (fun pn => legal pn /\ pn_stage pn = s) pns ->
    le_bob pns = Ret c \/ le_single pns = Ret c ->
    let above n := forall pn i, In pn pns -> n <= i -> i < s -> In i (pn_places pn) in
    exists e, call_effective_stage c = Ret e /\ 1 <= e /\ e <= s /\ above e /\ forall n, 1 <= n -> above n -> e <= n.
Proof.
  intros pns s c Ne L Ec above. destruct (pf_C67_calls pns s Ne L) as (b & si & rs & lo & ts & Eb & Es & _ & _ & R & _ & _ & H).
  assert (Hc : c = b \/ c = si) by (destruct Ec as [E|E]; [left|right]; congruence).
  destruct (H c Hc) as (_ & _ & _ & _ & B & _).
  destruct (pf_C35_effective_stage _ _ _ _ _ B) as (e & E & E1 & E2 & F & Lst & _). exists e.
  assert (Hs : 0 < s) by (destruct B; auto).
  assert (Rows : map fst (map (fun r => (r, tt)) (removelast (seq 0 s :: rs))) ++ [lo] = seq 0 s :: rs).
  { rewrite map_map. cbn [fst]. rewrite map_id. rewrite <- (rung_last _ _ _ _ R). symmetry. apply app_removelast_last. discriminate. }
  rewrite Rows in *.
  assert (K : forall n, (forall r i x, In r (seq 0 s :: rs) -> n <= i -> nth_error r i = Some x -> x = i) <-> above n).
  { intros n. assert (V : vrow s (seq 0 s)) by (rewrite <- rounds_seq; apply valid_rounds; auto).
    pose proof (rung_fixes s n pns _ _ _ V R (fixes_rounds n s)) as Q. rewrite !Forall_forall in Q.
    unfold above. split.
    - intros G pn i Hp Hi Hl. apply (proj1 Q); auto. intros r Hr j x Hj Ex. apply (G r); cbn; auto.
    - intros G r i x [<- |Hr] Hi Ex; [eapply fixes_rounds; eauto|]. apply (proj2 Q) with (x := r) (i := i); auto.
      intros pn Hp j Hj Lj. eapply G; eauto. }
  splits; auto.
  - apply K. exact F.
  - intros n Hn Ab. apply Lst; auto. apply K. exact Ab.
Qed.

Example C67_effective_stage_example :
  exists pns c, pn_block_parse (s2l "345678.125678") 8 = Ret (Ok pns) /\ le_bob pns = Ret c /\ call_effective_stage c = Ret 4.
Proof. do 2 eexists. split; [vm_compute; reflexivity|]. split; [vm_compute; reflexivity|]. vm_compute. reflexivity. Qed.

(** C67: a call made of its parts gives them back; it may cover more or fewer rows than it rings. *)
Theorem C67_calls_from_parts :
  forall n l k b s ars lo, block_holds b s ars lo ->
    let c := Call n l k b in
    notation c = n /\ location c = l /\ cover_len c = k /\ call_block c = b /\ call_len c = length ars /\ call_stage c = s /\
    call_transposition c = Ret lo.
Proof.
  intros n l k b s ars lo B c. pose proof (holds_brep _ _ _ _ B) as Br. splits; try reflexivity.
  - unfold call_len. cbn [call_block c]. erewrite brep_len; eauto.
  - apply B.
  - apply B.
Qed.

Example C67_parts_example :
  exists b, block_build (BlockArg 3 [[0; 1; 2]; [1; 0; 2]; [1; 2; 0]] (fun i => tt)) = Ret (Some b) /\
    cover_len (Call 45%N (s2l "LE") 5 b) = 5 /\ call_len (Call 45%N (s2l "LE") 5 b) = 2.
Proof. eexists. split; [vm_compute; reflexivity|]. split; reflexivity. Qed.

(** C70: the bells of a regex are those its elements give. *)
Theorem C70_bells_of_the_elements :
  forall es, bells_written es = flat_map (fun e => match elem_bell e with Some b => [b] | None => [] end) es /\
    forall e b, elem_bell e = Some b <-> regex_display [e] = bell_name b /\ bells_written [e] = [b].
Proof.
  intros es. split.
  - induction es as [|[b| |] es IH]; cbn; f_equal; auto.
  - intros [x| |] b; cbn; rewrite ?app_nil_r; split; intuition congruence.
Qed.

Example C70_bells_example : bells_written [RGlob; RBell 4; RAny; RBell 11] = [4; 11] /\ elem_bell (RBell 4) = Some 4 /\ elem_bell RGlob = None.
Proof. splits; reflexivity. Qed.

(** C71: [with_name] makes a method of any lead which is not empty, starts at rounds and does not jump where a treble dodging hunt bell
    crosses, on a stage which has a name; it keeps the name and the lead, with the labels. *)
Theorem C71_with_name :
  forall hash_order name lead s ars lo n, (forall l, collected_set l (hash_order l)) ->
    block_holds lead s ars lo -> ars <> [] -> is_identity (hd [] (map fst ars)) ->
    all_cross_sections (map fst ars) lo no_jump -> stage_name s = Some n ->
    exists m, with_name hash_order name lead = Ret m /\ first_lead m = lead /\ m_name m = name /\ method_stage m = s /\
      lead_len m = length ars /\ lead_head m = Ret lo /\
      (forall x i, In i (label_indices m x) <-> exists r, nth_error ars i = Some (r, Some x)) /\
      classify hash_order lead = Ret (m_class m) /\
      m_title m = joined (name_words name ++ title_words (m_class m) ++ [n]).
Proof.
  intros o name lead s ars lo n Ho B Na I J En.
  assert (C : exists fc, classify o lead = Ret fc).
  { destruct (pf_C62_panics _ lead s ars lo o B Na I Ho) as [(_ & r1 & r2 & X & Y)|(_ & C)]; auto. exfalso. apply Y. eapply J; eauto. }
  destruct C as (fc & C). unfold with_name. rewrite C. cbn [bind].
  assert (Es : block_stage lead = s) by apply B. rewrite Es, (proj1 (pf_C63_title name fc s) n En). cbn [bind].
  eexists. split; [reflexivity|]. cbn [first_lead m_name m_class m_title]. pose proof (holds_brep _ _ _ _ B) as Br. splits; auto.
  - unfold lead_len. cbn [first_lead]. erewrite brep_len; eauto.
  - unfold lead_head. cbn [first_lead]. apply B.
  - intros x i. unfold label_indices. cbn [first_lead].
    rewrite (proj2 (positions_ok (fun a => match a with Some t => str_eqb t x | None => false end) (blk_annots lead))).
    rewrite (proj2 Br). split.
    + intros (a & Ea & Pa). rewrite nth_error_map in Ea. destruct (nth_error ars i) as [[r a']|]; [|discriminate]. injection Ea as <-.
      cbn [snd] in *. destruct a' as [y|]; [|discriminate]. apply str_eqb_eq in Pa as ->. eauto.
    + intros (r & Er). exists (Some x). rewrite nth_error_map, Er. split; auto. apply str_eqb_eq. auto.
Qed.

Example C71_with_name_example :
  exists pns b m, pn_block_parse (s2l "-14-14,12") 4 = Ret (Ok pns) /\
    pn_block_to_block_from_rounds (Some (s2l "x")) pns = Ret b /\
    with_name (nodup Nat.eq_dec) (s2l "Plain") b = Ret m /\ m_title m = s2l "Plain Bob Minimus" /\
    label_indices m (s2l "x") = [0; 1; 2; 3; 4; 5; 6; 7].
Proof.
  do 3 eexists. split; [vm_compute; reflexivity|]. split; [vm_compute; reflexivity|]. split; [vm_compute; reflexivity|].
  split; vm_compute; reflexivity.
Qed.

(** C73: the debug text of a bell, a mask and a regex determines it, that of a place notation among those of its stage; and
    the debug texts of different types differ. *)
Theorem C73_debug_texts_are_unambiguous :
  (forall b b', bell_debug b = bell_debug b' -> b = b') /\
  (forall m m', mask_debug m = mask_debug m' -> m = m') /\
  (forall e e', regex_debug e = regex_debug e' -> e = e') /\
  (forall r r', row_debug r = row_debug r' -> r = r') /\ (forall r r', row_buf_debug r = row_buf_debug r' -> r = r') /\
  (forall pn pn', pn_stage pn = pn_stage pn' -> pn_debug pn = pn_debug pn' -> pn = pn') /\
  (forall b m e r r' pn, NoDup [bell_debug b; mask_debug m; regex_debug e; row_debug r; row_buf_debug r'; pn_debug pn]).
Proof.
  destruct pf_C73_texts_are_unambiguous as (R & M & E & P & _).
  assert (I : forall (f : str) (a b : str), f ++ a ++ s2l ")" = f ++ b ++ s2l ")" -> a = b).
  { intros f a b H. apply app_inv_head in H. apply app_inv_tail in H. exact H. }
  splits; intros.
  - apply I in H. assert (Q : [b] = [b']); [|congruence]. apply R. unfold row_display. cbn. rewrite !app_nil_r. exact H.
  - apply M. eapply I; eauto.
  - apply E. eapply I; eauto.
  - apply R. eapply I; eauto.
  - apply R. eapply I; eauto.
  - apply P; auto. eapply I; eauto.
  - repeat (apply NoDup_cons; [cbn [In]; intros Q; decompose [or] Q; try discriminate; auto|]). apply NoDup_nil.
Qed.

Example C73_debug_example :
  bell_debug 10 = s2l "Bell(E)" /\ mask_debug [Some 0; None] = s2l "Mask(1x)" /\ regex_debug [RGlob; RBell 3] = s2l "Regex(*4)" /\
  pn_debug (PlaceNot [0; 3] 6) = s2l "PlaceNot(14)".
Proof. splits; reflexivity. Qed.

(** C73: the debug text of one of these cannot be mistaken for a displayed text: it has brackets, which no displayed bell,
    row, mask, regex or place notation has. *)
Theorem C73_debug_texts_are_not_displayed_ones :
  forall b m e r pn,
    (forall t, In t [bell_debug b; mask_debug m; regex_debug e; row_debug r; row_buf_debug r; pn_debug pn] ->
       exists name inside, t = name ++ s2l "(" ++ inside ++ s2l ")" /\ name <> []) /\
    (forall t, In t [bell_name b; mask_display m; regex_display e; row_display r; pn_display pn] -> ~ In 40%N t /\ ~ In 41%N t).
Proof.
  intros b m e r pn. split.
  - intros t [<-|[<-|[<-|[<-|[<-|[<-|[]]]]]]];
      [exists (s2l "Bell"), (bell_name b)|exists (s2l "Mask"), (mask_display m)|exists (s2l "Regex"), (regex_display e)|
       exists (s2l "Row"), (row_display r)|exists (s2l "RowBuf"), (row_display r)|exists (s2l "PlaceNot"), (pn_display pn)];
      split; try reflexivity; discriminate.
  - assert (B : forall b c, In c (bell_name b) -> c <> 40%N /\ c <> 41%N).
    { intros x c. unfold bell_name. destruct (bell_to_char x) as [d|] eqn:E.
      - apply nth_error_In in E. intros [<-|[]]. revert d E. apply Forall_forall, Forall_forall. intros d Hd. vm_compute in Hd.
        repeat (destruct Hd as [<-|Hd]; [split; discriminate|]). destruct Hd.
      - rewrite !in_app_iff. intros [H|[H|H]]; [cbn in H; destruct H as [<-|[]]; split; discriminate| |cbn in H; destruct H as [<-|[]]; split; discriminate].
        pose proof (dec_digits (x + 1)) as D. rewrite forallb_forall in D. apply D in H. unfold digitb in H. apply andb_true_iff in H as [H1 H2].
        apply N.leb_le in H1, H2. lia. }
    assert (C : forall T (f : T -> list N) l c, (forall x, In c (f x) -> c <> 40%N /\ c <> 41%N) -> In c (concat (map f l)) -> c <> 40%N /\ c <> 41%N).
    { intros T f l c H Hc. apply in_concat in Hc as (u & Hu & Hc). apply in_map_iff in Hu as (x & <- & _). eauto. }
    assert (G : forall t, (forall c, In c t -> c <> 40%N /\ c <> 41%N) -> ~ In 40%N t /\ ~ In 41%N t).
    { intros t H. split; intros X; apply H in X; tauto. }
    intros t [<-|[<-|[<-|[<-|[<-|[]]]]]]; apply G; intros c.
    + apply B.
    + apply C. intros [x|]; [apply B|]. cbn. intros [<-|[]]; split; discriminate.
    + apply C. intros [x| |]; cbn [elem_display]; try apply B; cbn; intros [<-|[]]; split; discriminate.
    + apply C. intros x. apply B.
    + unfold pn_display. destruct (pn_is_cross pn); [cbn; intros [<-|[]]; split; discriminate|]. apply C. intros x. apply B.
Qed.

(** C44: the positions in errors are counted in bytes: what [byte_len] gives for a text is the number of bytes
    of its UTF-8 encoding, so a position of C44 is where the bytes of the rest of the text start. *)
Theorem C44_positions_count_bytes :
  (forall t bytes, utf8 t bytes -> length bytes = byte_len t) /\
  (forall before rest bytes, utf8 (before ++ rest) bytes ->
     utf8 before (firstn (byte_len before) bytes) /\ utf8 rest (skipn (byte_len before) bytes)).
Proof.
  assert (L : forall t, byte_len t = length (utf8_encode t)).
  { induction t as [|c t IH]; [reflexivity|]. unfold byte_len, utf8_encode in *. cbn [fold_right flat_map]. rewrite app_length, <- IH. f_equal.
    unfold utf8_len, encode_char. destruct (c <? 128)%N; [reflexivity|]. destruct (c <? 2048)%N; [reflexivity|]. destruct (c <? 65536)%N; reflexivity. }
  split; [intros t bytes H; rewrite (utf8_encode_unique _ _ H), L; reflexivity|].
  intros a b bytes H. pose proof (utf8_text _ _ H) as R. apply Forall_app in R as [Ra Rb]. apply utf8_encode_unique in H. subst bytes.
  replace (utf8_encode (a ++ b)) with (utf8_encode a ++ utf8_encode b) by (unfold utf8_encode; rewrite flat_map_app; reflexivity). rewrite L.
  rewrite firstn_app, Nat.sub_diag, firstn_all, firstn_O, app_nil_r, skipn_app, skipn_all, Nat.sub_diag. split; apply encode_utf8; auto.
Qed.

Example C44_bytes_example :
  utf8 [233; 49; 43]%N [195; 169; 49; 43]%N /\ byte_len [233; 49]%N = 3 /\
  pn_block_parse [233; 49; 43]%N 6 = Ret (Err (PlusNotAtBlockStart 3)).
Proof. split; [apply (encode_utf8 [233; 49; 43]%N); repeat constructor; lia|]. split; vm_compute; reflexivity. Qed.

