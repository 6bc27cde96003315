(** Property theorems C80 onwards: laws which relate several functions of the API. *)
(*IMPORTS*)
From Verif Require Import Base Bell Stage Parity Row Utils SameStageVec Block PlaceNot Spec SpecVec SpecBlock SpecPn ListFacts
  BellFacts RowFacts MulFacts ParityFacts GroupFacts GroupFacts2 SsvFacts BlockFacts PnFacts PnFacts2 PnFacts3 SpecLaws LawFacts.
From Verif Require Import PnThms.
Local Open Scope list_scope.
(*BODY*)
(** C80: the place notation between each row and the next of those rung by a block is the change of the
    block at that place. *)
Theorem C80_rows_give_the_changes_back :
  forall pns start s v rows, pns <> [] -> Forall (fun pn => legal pn /\ pn_stage pn = s) pns ->
    valid_row start -> length start = s ->
    pn_block_to_rows pns start = Ret (Ok v) -> ssv_rows v = Ret rows ->
    length rows = length pns + 1 /\
    forall i r r', nth_error rows i = Some r -> nth_error rows (i + 1) = Some r' ->
      pn_between r r' = Ret (nth_error pns i).
Proof.
  intros pns start s v rows N F V L T R.
  destruct (to_rows_ok pns start s N F (conj V L)) as (v' & rs & x & E & Rv & Ru). rewrite E in T. injection T as ->.
  apply rep_rows in Rv as E'. rewrite E' in R. injection R as <-.
  pose proof (rung_length _ _ _ _ Ru) as Le. split; [cbn; lia|]. intros i a b A B.
  destruct (rung_nth _ _ _ _ _ _ _ Ru A B) as (pn & P & Ri).
  destruct (rung_vrow s _ _ _ _ (conj V L) Ru) as [Fr _].
  assert (Fa : forall j r, nth_error (start :: rs) j = Some r -> vrow s r).
  { intros [|j] r Hr; [injection Hr as <-; split; auto|]. rewrite Forall_forall in Fr. eapply Fr, nth_error_In. exact Hr. }
  pose proof (Fa _ _ A) as [Va La]. pose proof (Fa _ _ B) as [Vb Lb].
  destruct (pn_between_ok a b Va Vb) as (o & Eo & Ho). rewrite Eo, P. f_equal. apply Ho.
  rewrite Forall_forall in F. destruct (F pn (nth_error_In _ _ P)) as [G S]. rewrite La. auto.
Qed.

(** C80: conversely, if there is a place notation between each row and the next of a list of rows, these
    place notations make a block, and ringing it from the first row gives the list. *)
Theorem C80_changes_give_the_rows_back :
  forall s r rows pns, 0 < length rows -> Forall (fun x => valid_row x /\ length x = s) (r :: rows) ->
    length pns = length rows ->
    (forall i a b, nth_error (r :: rows) i = Some a -> nth_error (r :: rows) (i + 1) = Some b ->
       exists pn, nth_error pns i = Some pn /\ pn_between a b = Ret (Some pn)) ->
    pn_block_from_vec pns = Ok pns /\
    exists v, pn_block_to_rows pns r = Ret (Ok v) /\ ssv_rows v = Ret (r :: rows).
Proof.
  intros s r rows pns P F L H.
  assert (Fa : forall j x, nth_error (r :: rows) j = Some x -> vrow s x).
  { intros j x Hx. rewrite Forall_forall in F. eapply F, nth_error_In. exact Hx. }
  assert (G : forall i a b, nth_error (r :: rows) i = Some a -> nth_error (r :: rows) (i + 1) = Some b ->
     exists pn, nth_error pns i = Some pn /\ rings (pn_places pn) 0 a b /\ legal pn /\ pn_stage pn = s).
  { intros i a b A B. destruct (H i a b A B) as (pn & Q & E). exists pn. split; auto.
    destruct (Fa _ _ A) as [Va La], (Fa _ _ B) as [Vb Lb]. destruct (pn_between_ok a b Va Vb) as (o & Eo & Ho).
    rewrite E in Eo. injection Eo as <-. destruct (proj1 (Ho pn) eq_refl) as (S & Lg & R). rewrite S. auto. }
  assert (Fp : Forall (fun pn => legal pn /\ pn_stage pn = s) pns).
  { apply Forall_forall. intros pn Hp. apply In_nth_error in Hp as (i & Hi).
    assert (Li : i < length pns) by (apply nth_error_Some; congruence).
    destruct (nth_error (r :: rows) i) as [a|] eqn:A; [|apply nth_error_None in A; cbn in A; lia].
    destruct (nth_error (r :: rows) (i + 1)) as [b|] eqn:B; [|apply nth_error_None in B; cbn in B; lia].
    destruct (G i a b A B) as (q & Q & _ & X). congruence. }
  assert (N : pns <> []) by (destruct pns; [cbn in L; lia|discriminate]).
  split.
  - pose proof (pn_block_from_vec_spec pns N) as S. destruct pns as [|q pns]; [congruence|].
    apply (proj2 (proj1 (pf_C45_from_vec (q :: pns)) (q :: pns))). splits; auto. intros a b Ha Hb.
    rewrite Forall_forall in Fp. destruct (Fp a Ha), (Fp b Hb). congruence.
  - destruct (to_rows_ok pns r s N Fp) as (v & rs & x & E & Rv & Ru); [apply (Fa 0); reflexivity|].
    exists v. split; auto. rewrite (rep_rows _ _ _ Rv). do 2 f_equal.
    assert (R2 : rung r pns rows (last rows r)).
    { apply rung_intro; auto. intros i a b A B. destruct (G i a b A B) as (pn & Q & R & _). eauto. }
    apply (rung_fun _ _ _ _ _ _ Ru R2).
Qed.

(** C80: so blocks of legal changes which ring the same rows from the same start are the same. *)
Theorem C80_different_blocks_ring_different_rows :
  forall pns pns' start s v, pns <> [] -> pns' <> [] ->
    Forall (fun pn => legal pn /\ pn_stage pn = s) pns -> Forall (fun pn => legal pn /\ pn_stage pn = s) pns' ->
    valid_row start -> length start = s ->
    pn_block_to_rows pns start = Ret (Ok v) -> pn_block_to_rows pns' start = Ret (Ok v) -> pns = pns'.
Proof.
  intros pns pns' start s v N N' F F' V L E E'.
  destruct (to_rows_ok pns start s N F (conj V L)) as (w & rs & x & E1 & Rv & _). rewrite E in E1. injection E1 as <-.
  apply rep_rows in Rv.
  destruct (pf_C80_rows_give_the_changes_back pns start s v _ N F V L E Rv) as [A1 A2].
  destruct (pf_C80_rows_give_the_changes_back pns' start s v _ N' F' V L E' Rv) as [B1 B2].
  apply nth_error_ext. intros i. destruct (Nat.lt_ge_cases i (length pns)) as [Hi|Hi].
  - destruct (nth_error (start :: rs) i) as [a|] eqn:A; [|apply nth_error_None in A; lia].
    destruct (nth_error (start :: rs) (i + 1)) as [b|] eqn:B; [|apply nth_error_None in B; lia].
    pose proof (A2 i a b A B) as P. rewrite (B2 i a b A B) in P. congruence.
  - rewrite (proj2 (nth_error_None _ _)) by lia. symmetry. apply nth_error_None. lia.
Qed.

(** C80: ringing a block from another row [a] times the start gives the rows multiplied by [a]: the buffer
    is the one [pre_multiply] makes. *)
Theorem C80_other_starts :
  forall pns start s a v, pns <> [] -> Forall (fun pn => legal pn /\ pn_stage pn = s) pns ->
    valid_row start -> length start = s -> valid_row a -> length a = s ->
    pn_block_to_rows pns start = Ret (Ok v) ->
    exists a_start v', row_mul a start = Ret a_start /\ ssv_pre_multiply v a = Ret (v', Ok tt) /\
      pn_block_to_rows pns a_start = Ret (Ok v').
Proof.
  intros pns start s a v N F V L Va La E.
  assert (Vs : vrow s start) by (split; auto). assert (Vas : vrow s a) by (split; auto).
  destruct (to_rows_ok pns start s N F Vs) as (w & rs & x & E1 & Rv & Ru). rewrite E in E1. injection E1 as <-.
  destruct (ssv_pre_multiply_ok s _ _ a Rv Vas) as (v' & E2 & R2).
  destruct (to_rows_ok pns (rmul a start) s N F) as (w & rs' & x' & E3 & Rw & Ru'); [apply valid_rmul; auto|].
  exists (rmul a start), v'. splits; auto.
  - apply (row_mul_ok s); auto.
  - rewrite E3. do 2 f_equal. eapply rep_eq; [exact Rw|]. apply (rung_map (fun x => nth x a 0)) in Ru.
    destruct (rung_fun _ _ _ _ _ _ Ru Ru') as [<- _]. exact R2.
Qed.

(** C80: ringing one block and then another is ringing the block of all their changes. *)
Theorem C80_one_block_after_another :
  forall A (d : A) pns pns' start s, pns <> [] -> pns' <> [] ->
    Forall (fun pn => legal pn /\ pn_stage pn = s) pns -> Forall (fun pn => legal pn /\ pn_stage pn = s) pns' ->
    valid_row start -> length start = s ->
    exists b b' b'', pn_block_to_block d pns start = Ret (Ok b) /\
      pn_block_to_block_from_rounds d pns' = Ret b' /\ block_extend b b' = Ret (b'', Ok tt) /\
      pn_block_to_block d (pns ++ pns') start = Ret (Ok b'').
Proof.
  intros A d pns pns' start s N N' F F' V L.
  assert (Hs : 0 < s) by (rewrite <- L; apply valid_row_pos; auto).
  destruct (pf_C45_to_block A d pns start s N F V L) as (b & rs & x & E & R & H & _).
  destruct (valid_rounds s Hs) as [Vr Lr].
  destruct (pf_C45_to_block A d pns' (row_rounds s) s N' F' Vr Lr) as (b' & rs' & y & E' & R' & H' & Er).
  destruct (pf_C45_to_block A d (pns ++ pns') start s ltac:(destruct pns; [congruence|discriminate])
              ltac:(apply Forall_app; auto) V L) as (c & rs'' & z & E'' & R'' & H'' & _).
  exists b, b'. pose proof (holds_brep _ _ _ _ H) as B. pose proof (holds_brep _ _ _ _ H') as B'.
  pose proof (holds_brep _ _ _ _ H'') as B''.
  destruct (brep_extend _ _ _ _ _ _ _ B B') as (b'' & Ex & Bx). exists b''. splits; auto.
  - apply Er. apply rounds_seq.
  - rewrite E''. do 2 f_equal. eapply brep_eq; [exact B''|].
    destruct (rung_vrow s _ _ _ _ (conj V L) R) as [_ Vx].
    assert (Rm : rung x pns' (map (row_product x) rs') (row_product x y)).
    { apply (rung_map (fun i => nth i x 0)) in R'. fold (rmul x (row_rounds s)) in R'. rewrite rmul_rounds_r in R' by apply Vx. exact R'. }
    destruct (rung_fun _ _ _ _ _ _ R'' (rung_app _ _ _ _ _ _ _ R Rm)) as [-> ->].
    destruct (rung_vrow s _ _ _ _ (conj Vr Lr) R') as [Fr Vy].
    assert (M : forall r, vrow s r -> moved (row_rounds s) x r = row_product x r).
    { intros r Hr. apply (moved_unique s); auto; [split; auto|].
      pose proof (composition_vrow s x (row_rounds s) Vx (conj Vr Lr)) as C. rewrite rmul_rounds_r in C by apply Vx. exact C. }
    replace (nth 0 (all_rows_of (map (fun r => (r, d)) (removelast (row_rounds s :: rs'))) y) []) with (row_rounds s) in Bx.
    2:{ destruct rs' as [|r1 rs']; [inversion R'; subst; congruence|]. reflexivity. }
    rewrite M in Bx by auto. match goal with |- brep _ ?l _ _ => match type of Bx with brep _ ?l' _ _ => replace l with l'; [exact Bx|] end end.
    assert (Es : start :: rs ++ map (row_product x) rs' = (removelast (start :: rs) ++ [x]) ++ map (row_product x) rs').
    { rewrite <- (rung_last _ _ _ _ R). rewrite <- app_removelast_last by discriminate. reflexivity. }
    rewrite Es, removelast_middle, map_app. f_equal. rewrite map_map. cbn [fst snd].
    replace (x :: map (row_product x) rs') with (map (row_product x) (row_rounds s :: rs')).
    + rewrite removelast_map, map_map. apply map_ext_in. intros r Hr. f_equal. apply M.
      assert (In r (row_rounds s :: rs')) as [<-|Hi].
      { clear - Hr. remember (row_rounds s :: rs') as l. clear Heql. induction l as [|q [|q' l] IH]; [destruct Hr|destruct Hr|].
        destruct Hr as [<-|Hr]; [left; auto|right; auto]. }
      * split; auto.
      * rewrite Forall_forall in Fr. auto.
    + cbn [map]. f_equal. rewrite row_product_rmul. apply rmul_rounds_r, Vx.
Qed.

(** C80: ringing the changes of a block backwards from the row it leads to brings back its rows in reverse. *)
Theorem C80_ringing_backwards :
  forall pns start s v rows last_row, pns <> [] -> Forall (fun pn => legal pn /\ pn_stage pn = s) pns ->
    valid_row start -> length start = s ->
    pn_block_to_rows pns start = Ret (Ok v) -> ssv_rows v = Ret rows -> last_opt rows = Some last_row ->
    exists v', pn_block_to_rows (rev pns) last_row = Ret (Ok v') /\ ssv_rows v' = Ret (rev rows).
Proof.
  intros pns start s v rows x N F V L E R La.
  destruct (to_rows_ok pns start s N F (conj V L)) as (w & rs & z & E1 & Rv & Ru). rewrite E in E1. injection E1 as <-.
  apply rep_rows in Rv. rewrite R in Rv. injection Rv as ->.
  assert (z = x) as ->.
  { rewrite <- (rung_last _ _ _ _ Ru). rewrite (app_removelast_last [] (l := start :: rs)) in La by discriminate.
    rewrite last_opt_snoc in La. congruence. }
  destruct (rung_vrow s _ _ _ _ (conj V L) Ru) as [_ Vx].
  assert (N' : rev pns <> []) by (destruct pns; [congruence|]; cbn; destruct (rev pns); discriminate).
  destruct (to_rows_ok (rev pns) x s N' (Forall_rev F) Vx) as (v' & rs' & y & E2 & R2 & Ru2).
  exists v'. split; auto. rewrite (rep_rows _ _ _ R2). f_equal.
  destruct (rung_fun _ _ _ _ _ _ Ru2 (rung_rev _ _ _ _ Ru)) as [-> _].
  assert (Eh : rev (start :: rs) = x :: tl (rev (start :: rs))).
  { rewrite <- (rung_last _ _ _ _ Ru). rewrite (app_removelast_last [] (l := start :: rs)) at 1 3 by discriminate.
    rewrite !rev_app_distr. reflexivity. }
  symmetry. exact Eh.
Qed.

(** Plain hunt on four bells, read off its rows. *)
Example C80_example :
  exists pns v, pn_block_parse (s2l "-14-14") 4 = Ret (Ok pns) /\ pn_block_to_rows pns [0; 1; 2; 3] = Ret (Ok v) /\
    ssv_rows v = Ret [[0; 1; 2; 3]; [1; 0; 3; 2]; [1; 3; 0; 2]; [3; 1; 2; 0]; [3; 2; 1; 0]] /\
    pn_between [1; 0; 3; 2] [1; 3; 0; 2] = Ret (Some (PlaceNot [0; 3] 4)) /\
    Forall (fun pn => legal pn /\ pn_stage pn = 4) pns.
Proof.
  do 2 eexists. splits; try (vm_compute; reflexivity).
  eapply pf_C43_parsed_changes_are_legal with (t := s2l "-14-14"); [lia|vm_compute; reflexivity].
Qed.

(** C81: any legal changes on at most 33 bells, written one after another as they are displayed, with dots or
    spaces where needed, are read back as the same block. *)
Theorem C81_changes_written_out :
  forall s pns t, 0 < s -> s <= 33 -> pns <> [] -> Forall (fun pn => legal pn /\ pn_stage pn = s) pns ->
    written_out pns t -> pn_block_parse t s = Ret (Ok pns).
Proof.
  intros s pns t Hs H33 N F W. pose proof (written_out_body s pns t H33 F W) as B.
  apply block_parse_ok; auto. apply body_no_comma; auto. split.
  - clear F B N. induction W as [|c pns t D W IH|s' pns t W IH|pn pns t E W IH].
    + intros [].
    + intros [->|K]; auto. destruct D as [D|D]; apply s2l1 in D; discriminate.
    + change (pn_display (PlaceNot [] s') ++ t) with (45%N :: t). intros [K|K]; auto. discriminate.
    + intros K. apply in_app_or in K as [K|K]; auto. revert K. unfold pn_display. destruct (pn_is_cross pn); [intros [K|[]]; discriminate|].
      apply comma_not_in_names.
  - pose proof (body_no_plus _ _ _ B) as P. rewrite Forall_forall in P. auto.
Qed.

(** C81: in particular with a dot between each two. *)
Theorem C81_changes_with_dots :
  forall s pns, 0 < s -> s <= 33 -> pns <> [] -> Forall (fun pn => legal pn /\ pn_stage pn = s) pns ->
    pn_block_parse (with_dots pns) s = Ret (Ok pns).
Proof.
  intros s pns Hs H33 N F. apply pf_C81_changes_written_out; auto. clear - N.
  induction pns as [|pn [|pn' pns] IH]; [congruence| |].
  - cbn [with_dots]. rewrite <- (app_nil_r (pn_display pn)). apply wo_places; [exact I|constructor].
  - change (with_dots (pn :: pn' :: pns)) with (pn_display pn ++ 46%N :: with_dots (pn' :: pns)). apply wo_places.
    + cbn. left. right. reflexivity.
    + apply wo_delimiter; [right; reflexivity|]. apply IH. discriminate.
Qed.

(** C81: two texts with a dot or a space between them describe the changes of the one followed by those of the
    other; with a comma between them, each is followed by its mirror image; a text after a [+] means the same
    as alone. *)
Theorem C81_texts_combine :
  forall s a b la lb d, 0 < s -> plain_text a -> plain_text b -> is_delimiter_char d ->
    pn_block_parse a s = Ret (Ok la) -> pn_block_parse b s = Ret (Ok lb) ->
    pn_block_parse (a ++ d :: b) s = Ret (Ok (la ++ lb)) /\
    pn_block_parse (a ++ s2l "," ++ b) s = Ret (Ok (la ++ tl (rev la) ++ lb ++ tl (rev lb))) /\
    pn_block_parse (s2l "+" ++ a) s = Ret (Ok la) /\
    pn_block_parse (s2l "+" ++ a ++ s2l "," ++ b) s = Ret (Ok (la ++ lb ++ tl (rev lb))).
Proof.
  intros s a b la lb d Hs Pa Pb D Ea Eb. apply block_parse_inv in Ea as [Na Ba]; auto. apply block_parse_inv in Eb as [Nb Bb]; auto.
  apply plain_block in Ba; auto. apply plain_block in Bb; auto.
  assert (NN : forall l : list place_not, la ++ l <> []) by (intros l K; apply app_eq_nil in K as [K _]; auto).
  destruct Pa as [Ca Qa], Pb as [Cb Qb]. splits.
  - apply block_parse_ok; auto. apply body_no_comma; [apply body_app; auto|]. split.
    + intros K. apply in_app_or in K as [K|[K|K]]; auto. subst d. destruct D as [D|D]; apply s2l1 in D; discriminate.
    + intros c K. apply in_app_or in K as [K|[<-|K]]; auto. intros K. destruct D as [D|D]; apply s2l1 in D; subst d; apply s2l1 in K; discriminate.
  - apply block_parse_ok; auto. exists [a; b]. splits; [discriminate|repeat constructor; auto|reflexivity|].
    replace (la ++ tl (rev la) ++ lb ++ tl (rev lb)) with (unfold_part false false la ++ unfold_part false false lb ++ [])
      by (cbn; rewrite app_nil_r, <- app_assoc; reflexivity).
    econstructor; [constructor; exact Ba|]. econstructor; [constructor; exact Bb|]. constructor.
  - apply block_parse_ok; auto. exists [s2l "+" ++ a]. splits; [discriminate| |reflexivity|].
    + constructor; auto. intros [K|K]; [discriminate|auto].
    + replace la with (unfold_part true true la ++ []) by (cbn; apply app_nil_r).
      econstructor; [apply (pc_plus s [] 43%N a la); [constructor|reflexivity|exact Ba]|constructor].
  - apply block_parse_ok; auto. exists [s2l "+" ++ a; b]. splits; [discriminate| |reflexivity|].
    + repeat constructor; auto. intros [K|K]; [discriminate|auto].
    + replace (la ++ lb ++ tl (rev lb)) with (unfold_part false true la ++ unfold_part false false lb ++ [])
        by (cbn; rewrite app_nil_r; reflexivity).
      econstructor; [apply (pc_plus s [] 43%N a la); [constructor|reflexivity|exact Ba]|].
      econstructor; [constructor; exact Bb|constructor].
Qed.

(** C81: a text with a mirror image leads from rounds to a row which is its own inverse, so the row at the end
    of two such parts (the lead head of most methods) is the product of two such rows. *)
Theorem C81_symmetrical_blocks :
  forall s a b la lb pns, 0 < s -> plain_text a -> plain_text b ->
    pn_block_parse a s = Ret (Ok la) -> pn_block_parse b s = Ret (Ok lb) ->
    pn_block_parse (a ++ s2l "," ++ b) s = Ret (Ok pns) ->
    exists lead x y lead_head, pn_block_to_block_from_rounds tt pns = Ret lead /\ block_leftover_row lead = Ret lead_head /\
      row_inv x = Ret x /\ row_inv y = Ret y /\ row_mul x y = Ret lead_head /\ row_inv lead_head = row_mul y x.
Proof.
  intros s a b la lb pns Hs Pa Pb Ea Eb Ep.
  destruct (pf_C81_texts_combine s a b la lb 32%N Hs Pa Pb ltac:(left; reflexivity) Ea Eb) as (_ & E & _). rewrite Ep in E. injection E as ->.
  apply block_parse_inv in Ea as [Na Ba]; auto. apply block_parse_inv in Eb as [Nb Bb]; auto.
  apply block_parse_inv in Ep as [Np Bp]; auto. apply block_changes_legal in Ba; auto. apply block_changes_legal in Bb; auto.
  pose proof (block_changes_legal _ _ _ Hs Bp) as F. destruct (valid_rounds s Hs) as [Vr Lr].
  rewrite app_assoc in *. pose proof F as F0. apply Forall_app in F0 as [Fa Fb].
  destruct (pf_C45_to_block unit tt _ (row_rounds s) s Np F Vr Lr) as (lead & rs & z & E & R & H & Er).
  exists lead. set (pa := la ++ tl (rev la)) in *. set (pb := lb ++ tl (rev lb)) in *.
  destruct (to_rows_ok pa (row_rounds s) s) as (va & ra & x & _ & _ & Ra); auto.
  { unfold pa. intros K; apply app_eq_nil in K as [K _]; auto. }
  { split; auto. }
  destruct (to_rows_ok pb (row_rounds s) s) as (vb & rb & y & _ & _ & Rb); auto.
  { unfold pb. intros K; apply app_eq_nil in K as [K _]; auto. }
  { split; auto. }
  destruct (rung_vrow s _ _ _ _ (conj Vr Lr) Ra) as [_ Vx]. destruct (rung_vrow s _ _ _ _ (conj Vr Lr) Rb) as [_ Vy].
  pose proof (palindrome_involution s pa ra x Hs Fa (mirror_palindrome la) Ra) as Ix.
  pose proof (palindrome_involution s pb rb y Hs Fb (mirror_palindrome lb) Rb) as Iy.
  assert (z = rmul x y) as ->.
  { pose proof (rung_map (fun i => nth i x 0) _ _ _ _ Rb) as R2. fold (rmul x (row_rounds s)) in R2. rewrite rmul_rounds_r in R2 by apply Vx.
    destruct (rung_fun _ _ _ _ _ _ R (rung_app _ _ _ _ _ _ _ Ra R2)) as [_ K]. exact K. }
  pose proof (rinv_unique s x x Vx Vx Ix) as Jx. pose proof (rinv_unique s y y Vy Vy Iy) as Jy.
  exists x, y, (rmul x y). splits.
  - apply Er. apply rounds_seq.
  - apply H.
  - rewrite row_inv_ok by apply Vx. congruence.
  - rewrite row_inv_ok by apply Vy. congruence.
  - apply (row_mul_ok s); auto.
  - rewrite row_inv_ok by (apply (valid_rmul s); auto). rewrite (rinv_rmul s) by auto. rewrite <- Jx, <- Jy.
    symmetry. apply (row_mul_ok s); auto.
Qed.

(** Cambridge Surprise Minor: its lead head, and the text of its first changes without any dot between a cross and
    another change. *)
Example C81_example :
  plain_text (s2l "-36-14-12-36-14-56") /\ plain_text (s2l "12") /\
  (exists pns lead, pn_block_parse (s2l "-36-14-12-36-14-56,12") 6 = Ret (Ok pns) /\
     pn_block_to_block_from_rounds tt pns = Ret lead /\ block_leftover_row lead = Ret [0; 4; 5; 2; 3; 1]) /\
  written_out [PlaceNot [] 6; PlaceNot [2; 5] 6; PlaceNot [0; 3] 6; PlaceNot [] 6] (s2l "-36.14-").
Proof.
  splits.
  - split; [intros K|intros c K P; apply s2l1 in P; subst c]; vm_compute in K; intuition discriminate.
  - split; [intros K|intros c K P; apply s2l1 in P; subst c]; vm_compute in K; intuition discriminate.
  - do 2 eexists. splits; vm_compute; reflexivity.
  - apply (wo_cross 6). apply (wo_places (PlaceNot [2; 5] 6) _ (s2l ".14-")); [left; right; reflexivity|].
    apply (wo_delimiter 46%N); [right; reflexivity|]. apply (wo_places (PlaceNot [0; 3] 6) _ (s2l "-")); [right; right; right; reflexivity|].
    apply (wo_cross 6). constructor.
Qed.
