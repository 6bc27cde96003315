(** Property theorems C141: touches of Plain Bob. *)
(*IMPORTS*)
From Verif Require Import Base Spec ListFacts Bell Stage Row RowFacts MulFacts GroupFacts
  Utils SameStageVec SpecVec SsvFacts Block SpecBlock BlockFacts PlaceNot SpecPn PnFacts PnFacts2 PnFacts3 LawFacts
  Class SpecClass Method SpecMethod MethodFacts SymFacts3 ShapeFacts BellPathFacts SpecHunt HuntFacts BobFacts AffectFacts CalledBobFacts.
From Verif Require Import PnThms.
Local Open Scope list_scope.
(*BODY*)

(** C141: a touch of Plain Bob, with any changes made at the lead ends which leave the treble in front, has a repeated row only if it has one with
    the treble in front; these are the first and the last row of every lead. *)
Theorem C141_true_touches :
  forall A (d : A) n calls b ars lo, 3 <= n -> calls <> [] ->
    Forall (fun c => legal c /\ pn_stage c = n /\ In 0 (pn_places c)) calls ->
    pn_block_to_block_from_rounds d (concat (map (fun c => removelast (plain_bob n) ++ [c]) calls)) = Ret b -> block_holds b n ars lo ->
    length ars = length calls * (2 * n) /\
    (forall i r, nth_error (map fst ars) i = Some r -> (nth_error r 0 = Some 0 <-> i mod (2 * n) = 0 \/ i mod (2 * n) = 2 * n - 1)) /\
    (NoDup (map fst ars) <->
     forall i j r, nth_error (map fst ars) i = Some r -> nth_error (map fst ars) j = Some r -> nth_error r 0 = Some 0 -> i = j).
Proof.
  intros A d n calls b ars lo Hn N F E H. assert (Hn0 : 0 < n) by lia. change (fun c => removelast (plain_bob n) ++ [c]) with (called_lead n) in E.
  set (pns := concat (map (called_lead n) calls)) in *.
  assert (Fl : Forall (fun pn => legal pn /\ pn_stage pn = n) pns).
  { apply leads_legal; [lia|]. eapply Forall_impl; [|exact F]. intros c (X & Y & _). auto. }
  assert (Ll : length pns = length calls * (2 * n)).
  { unfold pns, called_lead. rewrite leads_len, bob_body_len by auto. f_equal. lia. }
  assert (Np : pns <> []) by (intros Q; rewrite Q in Ll; destruct calls; [congruence|cbn [length] in Ll; nia]).
  destruct (lead_crs n pns Hn0 Np Fl d) as (b0 & ars0 & E0 & H0 & M0 & _). rewrite E in E0. injection E0 as <-.
  assert (ars = ars0) as <- by (destruct H as (_ & _ & _ & _ & _ & X & _), H0 as (_ & _ & _ & _ & _ & Y & _); congruence).
  destruct (leads_trof n calls ltac:(lia) N) as [T1 T2]. fold pns in T1, T2.
  assert (Vtr : forall x, vrow n (trof n pns x)) by (intros x; apply trof_v; auto).
  assert (T3 : forall k, k < length calls -> nth 0 (trof n pns (k * (2 * n) + (2 * n - 1))) 0 = 0).
  { intros k Hk. destruct (nth_error calls k) as [c|] eqn:Ec; [|apply nth_error_None in Ec; lia]. rewrite (T2 k c Ec).
    rewrite Forall_forall in F. destruct (F c (nth_error_In _ _ Ec)) as (Lc & Sc & I0). destruct (pn_transposition_ok c Lc) as (t & -> & V & R).
    rewrite Sc, rounds_seq in R. replace n with (S (n - 1)) in R by lia. cbn [seq] in R. inversion R as [|? ? ? ? J R1|? ? ? ? ? J]; subst; [auto|contradiction]. }
  assert (Na : forall i, i < length calls * (2 * n) -> nth_error (map fst ars) i = Some (crs n (trof n pns) i)).
  { intros i Hi. rewrite M0. apply crows_nth. lia. }
  assert (La : length (map fst ars) = length calls * (2 * n)) by (rewrite M0; unfold crows; rewrite map_length, seq_length; auto).
  assert (Tr : forall i r, nth_error (map fst ars) i = Some r -> (nth_error r 0 = Some 0 <-> i mod (2 * n) = 0 \/ i mod (2 * n) = 2 * n - 1)).
  { intros i r Hi. assert (Li : i < length calls * (2 * n)) by (rewrite <- La; apply nth_error_Some; congruence). rewrite Na in Hi by auto. injection Hi as <-.
    pose proof (Nat.div_mod i (2 * n) ltac:(lia)) as Di. pose proof (Nat.mod_upper_bound i (2 * n) ltac:(lia)) as Mi.
    set (k := i / (2 * n)) in *. set (t := i mod (2 * n)) in *. clearbody k t. rewrite Nat.mul_comm in Di. subst i. assert (Hk : k < length calls) by nia.
    rewrite (lead_split n (length calls)) by auto. pose proof (hrow_v n t Hn0) as [Vt Lt]. pose proof (Vc n (trof n pns) Hn Vtr (k * (2 * n))) as [Vk Lk].
    rewrite (nth_error_nth' _ 0) by (unfold rmul; rewrite map_length; lia). rewrite nth_rmul by lia.
    assert (Z : nth (nth 0 (hrow n t) 0) (crs n (trof n pns) (k * (2 * n))) 0 = 0 <-> nth 0 (hrow n t) 0 = 0).
    { pose proof (treble_heads n (length calls) (trof n pns) Hn Vtr T1 T3 k ltac:(lia)) as Z0. split; [|intros ->; auto]. intros Z. destruct Vk as (_ & Nd & _).
      apply (proj1 (NoDup_nth _ 0) Nd); [|lia|congruence]. rewrite Lk. pose proof (valid_row_nth_lt _ 0 Vt) as X. rewrite Lt in X. apply X. lia. }
    assert (W : nth 0 (hrow n t) 0 = 0 <-> t = 0 \/ t = 2 * n - 1).
    { assert (X : nth 0 (hrow n t) 0 = 0 <-> 0 = hunting_place n 0 t).
      { split; [|intros X; rewrite X at 1; apply hrow_nth; lia]. intros X. apply hrow_only; [lia|]. rewrite (nth_error_nth' _ 0) by lia. f_equal. auto. }
      rewrite X. unfold hunting_place. cbn [Nat.even Nat.add]. rewrite Nat.mod_small by auto. unfold out_and_in. destruct (Nat.ltb_spec t n); lia. }
    split; [intros X; apply W, Z; congruence|intros X; f_equal; apply Z, W; auto]. }
  rewrite map_length in La. split; auto. split; auto. split.
  - intros Nd i j r Hi Hj _. apply (proj1 (NoDup_nth_error _) Nd); [apply nth_error_Some; congruence|congruence].
  - intros K. assert (In2 : forall i j, i < length calls * (2 * n) -> j < length calls * (2 * n) -> crs n (trof n pns) i = crs n (trof n pns) j ->
      (i mod (2 * n) = 0 \/ i mod (2 * n) = 2 * n - 1) -> i = j).
    { intros i j Hi Hj Q X. apply (K i j (crs n (trof n pns) i)); [apply Na; auto|rewrite Q; apply Na; auto|]. apply (Tr i); auto. }
    rewrite M0. unfold crows. rewrite Ll. apply NoDup_map_inj; [|apply seq_NoDup]. intros x y Hx Hy. apply in_seq in Hx, Hy.
    apply (leads_true n (length calls)); auto; try lia.
    + intros k l Hk Hl Q. assert (X : k * (2 * n) = l * (2 * n)) by (apply In2; auto; [nia|nia|left; apply Nat.mod_mul; lia]). nia.
    + intros k l Hk Hl Q. assert (X : k * (2 * n) = l * (2 * n) + (2 * n - 1)) by (apply In2; auto; [nia|nia|left; apply Nat.mod_mul; lia]). nia.
Qed.

(** C141: with a bob (14) at every lead end, Plain Bob comes round after [n - 3] leads; no row is repeated, and the three bells in front are back in
    their places at every lead head (and no other bell is, but on four bells). *)
Theorem C141_bobs :
  forall n m bob, 4 <= n -> pn_parse (s2l "14") n = Ret (Ok bob) ->
    pn_block_to_block_from_rounds None (removelast (plain_bob n) ++ [bob]) = Ret (first_lead m) ->
    exists head pc pars, lead_head m = Ret head /\ (forall b, b < n -> (hunt_bell head b <-> b < 3 \/ n = 4)) /\
      (forall fuel, n - 3 <= fuel -> plain_course fuel m = Ret pc) /\ block_holds pc n pars (seq 0 n) /\
      length pars = (n - 3) * (2 * n) /\ NoDup (map fst pars).
Proof.
  intros n m bob Hn Eb Em. destruct (calls_transpositions n Hn) as (plain & bob' & single & _ & Eb' & _ & F & Tb & _). rewrite Eb in Eb'. injection Eb' as <-.
  apply Forall_inv_tail, Forall_inv in F. assert (V : vrow n (bob_change n)).
  { destruct F as [L Sn]. destruct (pn_transposition_ok bob L) as (t & Et & Vt & _). rewrite Sn in Vt. rewrite Tb in Et. injection Et as <-. exact Vt. }
  pose proof (call_head_v n (bob_change n) Hn V) as Vh.
  assert (HK : 0 < n - 3) by lia.
  assert (Mi : forall j, 0 < j -> (rpow (call_head n (bob_change n)) j = row_rounds n -> n - 3 <= j)).
  { intros j Hj E. apply bob_rounds in E; auto. apply Nat.mod_divides in E; [|lia]. destruct E as [k Ek]. assert (0 < k) by (destruct k; lia). nia. }
  assert (EK : rpow (call_head n (bob_change n)) (n - 3) = row_rounds n) by (apply bob_rounds; auto; apply Nat.mod_same; lia).
  destruct (called_course n bob (bob_change n) (n - 3) Hn F Tb V eq_refl m Em HK Mi EK) as (pc & pars & Pc & H & Lp & Hd & T & _).
  exists (call_head n (bob_change n)), pc, pars. splits; auto.
  - intros b Hb. unfold hunt_bell. rewrite (nth_error_nth' _ 0) by (rewrite (proj2 Vh); auto). destruct (Nat.lt_ge_cases b 3) as [B|B].
    + rewrite bob_low by auto. split; auto.
    + destruct (working_ex (n - 2) (b - 2) ltac:(lia)) as (c & Hc & Ec).
      pose proof (call_home n (bob_change n) Hn V ltac:(auto) 1 c ltac:(lia)) as Q. rewrite (rpow_1 n), Ec in Q by auto. replace (2 + (b - 2)) with b in Q by lia.
      split.
      * intros X. injection X as X. apply Q in X. right. destruct (Nat.eq_dec n 4) as [|N]; auto. rewrite Nat.mod_small in X; lia.
      * intros [X|X]; [lia|]. f_equal. apply Q. subst n. reflexivity.
  - apply T. intros j. apply bob_not_end; auto.
Qed.

(** C141: with a single (1234) at every lead end it comes round after the least number of leads which is divisible by two and by [n - 3]; no row is
    repeated exactly when there are at least six bells. *)
Theorem C141_singles :
  forall n m single, 4 <= n -> pn_parse (s2l "1234") n = Ret (Ok single) ->
    pn_block_to_block_from_rounds None (removelast (plain_bob n) ++ [single]) = Ret (first_lead m) ->
    exists pc pars, (forall fuel, Nat.lcm 2 (n - 3) <= fuel -> plain_course fuel m = Ret pc) /\ block_holds pc n pars (seq 0 n) /\
      length pars = Nat.lcm 2 (n - 3) * (2 * n) /\ (NoDup (map fst pars) <-> 6 <= n).
Proof.
  intros n m single Hn Eb Em. destruct (calls_transpositions n Hn) as (plain & bob & single' & _ & _ & Eb' & F & _ & Tb). rewrite Eb in Eb'. injection Eb' as <-.
  apply Forall_inv_tail, Forall_inv_tail, Forall_inv in F. assert (V : vrow n (single_change n)).
  { destruct F as [L Sn]. destruct (pn_transposition_ok single L) as (t & Et & Vt & _). rewrite Sn in Vt. rewrite Tb in Et. injection Et as <-. exact Vt. }
  set (K := Nat.lcm 2 (n - 3)). assert (HK : 0 < K) by (destruct (Nat.eq_dec K 0) as [Z|]; [apply Nat.lcm_eq_0 in Z|]; lia).
  assert (Mi : forall j, 0 < j -> (rpow (call_head n (single_change n)) j = row_rounds n -> K <= j)).
  { intros j Hj E. apply single_rounds in E as [Ev E]; auto. apply Nat.divide_pos_le; auto. apply Nat.lcm_least.
    - apply Nat.even_spec in Ev. destruct Ev as [k ->]. exists k. lia.
    - apply Nat.mod_divide; [lia|auto]. }
  assert (EK : rpow (call_head n (single_change n)) K = row_rounds n).
  { apply single_rounds; auto. split.
    - apply Nat.even_spec. destruct (Nat.divide_lcm_l 2 (n - 3)) as [k X]. exists k. fold K in X. lia.
    - apply Nat.mod_divide; [lia|]. apply Nat.divide_lcm_r. }
  destruct (called_course n single (single_change n) K Hn F Tb V eq_refl m Em HK Mi EK) as (pc & pars & Pc & H & Lp & _ & T & T').
  exists pc, pars. splits; auto. split.
  - intros Nd. destruct (Nat.lt_ge_cases n 6) as [L|L]; auto. exfalso. assert (D : n = 4 \/ n = 5) by lia. unfold K in T'. destruct D; subst n; (apply T'; [cbn; lia|vm_compute; reflexivity|auto]).
  - intros L. apply T. intros j. apply single_not_end; auto.
Qed.

(** Three bobs of Plain Bob Minor; six singles of it; a touch with three bobs and a plain lead, which repeats its first row after the bobs. *)
Example C141_example :
  exists bob single plain mb ms pb ps b rows, pn_parse (s2l "14") 6 = Ret (Ok bob) /\ pn_parse (s2l "1234") 6 = Ret (Ok single) /\ pn_parse (s2l "12") 6 = Ret (Ok plain) /\
    pn_block_to_block_from_rounds None (removelast (plain_bob 6) ++ [bob]) = Ret (first_lead mb) /\
    pn_block_to_block_from_rounds None (removelast (plain_bob 6) ++ [single]) = Ret (first_lead ms) /\
    lead_head mb = Ret [0; 1; 2; 4; 5; 3] /\ lead_head ms = Ret [0; 2; 1; 4; 5; 3] /\
    plain_course 9 mb = Ret pb /\ block_len pb = 36 /\ plain_course 9 ms = Ret ps /\ block_len ps = 72 /\
    pn_block_to_block_from_rounds tt (concat (map (fun c => removelast (plain_bob 6) ++ [c]) [bob; bob; bob; plain])) = Ret b /\ block_rows b = Ret rows /\
    nth_error rows 0 = Some [0; 1; 2; 3; 4; 5] /\ nth_error rows 36 = Some [0; 1; 2; 3; 4; 5].
Proof.
  do 3 eexists. eexists (Method [] [] (FullClass false false false Bob) _), (Method [] [] (FullClass false false false Bob) _). do 4 eexists.
  splits; vm_compute; reflexivity.
Qed.
