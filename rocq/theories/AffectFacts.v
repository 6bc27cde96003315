(** The bells which a call affects. *)
From Verif Require Import Base Spec SpecBlock SpecClass SpecVec SpecPn SpecAffect ListFacts Row RowFacts MulFacts GroupFacts SameStageVec Block SsvFacts BlockFacts
  PlaceNot PnFacts PnFacts2 PnFacts3 LawFacts ClassFacts BellPathFacts.
From Verif Require Import PnThms BlockThms.
Local Open Scope list_scope.

Section One.
Context (s : nat) (pn : place_not) (L : legal pn) (E : pn_stage pn = s).

Lemma takes_ex p : p < s -> exists q, q < s /\ takes pn p q.
Proof.
  intros P. destruct (pn_transposition_ok pn L) as (t & Et & V & _). rewrite E in V.
  exists (place_in t p). destruct V as [V Lt]. assert (N : nth_error t (place_in t p) = Some p) by (apply place_in_ok; auto; lia).
  split; [|exists t; auto]. rewrite <- Lt. apply nth_error_Some. congruence.
Qed.

Lemma takes_rings p q r r' : vrow s r -> rings (pn_places pn) 0 r r' -> takes pn p q -> nth_error r' q = nth_error r p /\ p < s.
Proof.
  intros Vr R (t & Et & Nq). destruct (pn_transposition_ok pn L) as (t' & Et' & V & Rt). rewrite E in *.
  rewrite Et in Et'. injection Et' as <-. pose proof (rings_rmul s _ r t Vr Rt) as R'. rewrite (rings_fun _ _ _ _ _ R R').
  assert (P : p < s). { rewrite <- (proj2 V). apply V. eapply nth_error_In; eauto. }
  split; auto. rewrite nth_error_rmul, Nq. cbn [option_map]. symmetry. apply nth_error_nth'. rewrite (proj2 Vr). auto.
Qed.
End One.

Lemma same_move_iff s pn pn' r r' r1 r1' x p j j' : legal pn -> legal pn' -> pn_stage pn = s -> pn_stage pn' = s -> vrow s r -> vrow s r' ->
  rings (pn_places pn) 0 r r1 -> rings (pn_places pn') 0 r' r1' -> nth_error r p = Some x -> nth_error r' p = Some x ->
  nth_error r1 j = Some x -> nth_error r1' j' = Some x -> (j = j' <-> same_move pn pn' p).
Proof.
  intros L L' E E' V V' R R' N N' J J'.
  assert (P : p < s). { rewrite <- (proj2 V). apply nth_error_Some. congruence. }
  pose proof (rings_vrow _ _ _ _ _ V R) as [V1 _]. pose proof (rings_vrow _ _ _ _ _ V' R') as [V1' _].
  assert (U : forall q, takes pn p q -> q = j).
  { intros q T. destruct (takes_rings s pn L E p q r r1 V R T) as [T1 _]. rewrite N in T1.
    rewrite <- (place_in_unique _ _ _ V1 J). symmetry. apply place_in_unique; auto. }
  assert (U' : forall q, takes pn' p q -> q = j').
  { intros q T. destruct (takes_rings s pn' L' E' p q r' r1' V' R' T) as [T1 _]. rewrite N' in T1.
    rewrite <- (place_in_unique _ _ _ V1' J'). symmetry. apply place_in_unique; auto. }
  split.
  - intros <-. destruct (takes_ex s pn L E p P) as (q & _ & T). destruct (takes_ex s pn' L' E' p P) as (q' & _ & T').
    exists q. split; auto. rewrite (U q T). rewrite <- (U' q' T'). auto.
  - intros (q & T & T'). rewrite <- (U q T). apply U'; auto.
Qed.

Lemma rung_paths s x : x < s -> forall pns pns' r r' rs rs' e e', length pns = length pns' ->
  Forall (fun pn => legal pn /\ pn_stage pn = s) pns -> Forall (fun pn => legal pn /\ pn_stage pn = s) pns' ->
  vrow s r -> vrow s r' -> place_in r x = place_in r' x -> rung r pns rs e -> rung r' pns' rs' e' ->
  (path_in rs x = path_in rs' x <->
   forall i p pn pn', nth_error (path_in (r :: rs) x) i = Some p -> nth_error pns i = Some pn -> nth_error pns' i = Some pn' -> same_move pn pn' p).
Proof.
  intros X. induction pns as [|pn pns IH]; intros [|pn' pns'] r r' rs rs' e e' Ln F F' V V' P R R'; try discriminate.
  - inversion R; inversion R'; subst. split; auto. intros _ [|i] p pn pn' _ H; discriminate.
  - inversion R as [|? ? ? r1 rs1 ? Rg Rn]; subst. inversion R' as [|? ? ? r1' rs1' ? Rg' Rn']; subst.
    inversion F as [|? ? [Lp Es] F1]; subst. inversion F' as [|? ? [Lp' Es'] F1']; subst.
    set (s := pn_stage pn) in *.
    pose proof (rings_vrow _ _ _ _ _ V Rg) as V1. pose proof (rings_vrow _ _ _ _ _ V' Rg') as V1'.
    assert (Pl : forall a, vrow s a -> nth_error a (place_in a x) = Some x) by (intros a [Va La]; apply place_in_ok; auto; lia).
    assert (K : place_in r1 x = place_in r1' x <-> same_move pn pn' (place_in r x)).
    { apply (same_move_iff s pn pn' r r' r1 r1' x); auto. rewrite P. auto. }
    cbn [length] in Ln. assert (Ln1 : length pns = length pns') by lia.
    cbn [path_in map]. split.
    + intros H. injection H as H1 H2. pose proof (proj1 (IH pns' r1 r1' rs1 rs1' e e' Ln1 F1 F1' V1 V1' H1 Rn Rn') H2) as I.
      intros [|i] p q q' N N1 N2; cbn [nth_error] in *.
      * injection N as <-. injection N1 as <-. injection N2 as <-. apply K; auto.
      * eapply I; eauto.
    + intros H. assert (H1 : place_in r1 x = place_in r1' x). { apply K. apply (H 0); auto. }
      unfold path_in in IH. cbn [map] in IH. f_equal; auto. apply (IH pns' r1 r1' rs1 rs1' e e' Ln1 F1 F1' V1 V1' H1 Rn Rn').
      intros i p q q' N N1 N2. apply (H (S i)); auto.
Qed.

Lemma full_path_of {A} (d : A) s pns b x : x < s -> pns <> [] -> Forall (fun pn => legal pn /\ pn_stage pn = s) pns ->
  pn_block_to_block_from_rounds d pns = Ret b ->
  exists rs lo, rung (seq 0 s) pns rs lo /\ block_full_path_of b x = Ret (Some (path_in (seq 0 s :: rs) x)).
Proof.
  intros X N F E. assert (Hs : 0 < s) by lia. pose proof (valid_rounds s Hs) as V. rewrite rounds_seq in V.
  destruct (pf_C45_to_block A d pns (seq 0 s) s N F (proj1 V) (proj2 V)) as (b' & rs & lo & _ & R & H & Eb).
  rewrite (Eb eq_refl) in E. injection E as ->. exists rs, lo. split; auto.
  destruct (proj1 (pf_C26_block_paths A b s _ lo x H) X) as (p & l & _ & -> & Fp & Fl).
  do 2 f_equal. destruct (rung_vrow s _ _ _ _ V R) as [Vrs Vlo].
  assert (Al : Forall (vrow s) (seq 0 s :: rs)) by (constructor; auto).
  assert (Es : seq 0 s :: rs = removelast (seq 0 s :: rs) ++ [lo]).
  { rewrite (app_removelast_last [] (l := seq 0 s :: rs)) at 1 by discriminate. f_equal. f_equal.
    clear - R. remember (seq 0 s) as r. clear Heqr. induction R as [r|r pn pns r1 rs r' G R IH]; auto. }
  rewrite Es at 1. unfold path_in. rewrite map_app. cbn [map]. rewrite map_map in Fp. cbn [fst] in Fp. rewrite map_id in Fp. f_equal.
  - rewrite Es in Al. apply Forall_app in Al as [Al _]. clear - Fp Al X. induction Fp as [|r i rows p H Fp IH]; auto.
    inversion Al as [|? ? [Vr Lr] Al']; subst. cbn [map]. f_equal; auto. symmetry. apply place_in_unique; auto. apply H; auto.
  - f_equal. symmetry. apply place_in_unique; [apply Vlo|]. apply Fl; auto.
Qed.


(** ** Bobs and singles at the lead end *)


Lemma four n : 4 <= n -> seq 0 n = 0 :: 1 :: 2 :: 3 :: seq 4 (n - 4).
Proof. intros H. replace n with (S (S (S (S (n - 4))))) at 1 by lia. reflexivity. Qed.


Lemma rings_12 made n t : 4 <= n -> In 0 made -> In 1 made -> ~ In 2 made -> ~ In 3 made -> rings made 0 (seq 0 n) t ->
  exists u, t = 0 :: 1 :: 3 :: 2 :: u /\ rings made 4 (seq 4 (n - 4)) u.
Proof.
  intros H I0 I1 I2 I3 R. rewrite (four n H) in R.
  inversion R as [|? ? ? ? J R1|? ? ? ? ? J]; subst; [|contradiction].
  inversion R1 as [|? ? ? ? J1 R2|? ? ? ? ? J1]; subst; [|contradiction].
  inversion R2 as [|? ? ? ? J2 R3|? ? ? ? ? J2 J3 R3]; subst; [contradiction|]. eexists. split; [reflexivity|exact R3].
Qed.
Lemma rings_14 made n t : 4 <= n -> In 0 made -> ~ In 1 made -> ~ In 2 made -> In 3 made -> rings made 0 (seq 0 n) t ->
  exists u, t = 0 :: 2 :: 1 :: 3 :: u /\ rings made 4 (seq 4 (n - 4)) u.
Proof.
  intros H I0 I1 I2 I3 R. rewrite (four n H) in R.
  inversion R as [|? ? ? ? J R1|? ? ? ? ? J]; subst; [|contradiction].
  inversion R1 as [|? ? ? ? J1 R2|? ? ? ? ? J1 J2 R2]; subst; [contradiction|].
  inversion R2 as [|? ? ? ? J3 R3|? ? ? ? ? J3]; subst; [|contradiction]. eexists. split; [reflexivity|exact R3].
Qed.
Lemma rings_1234 made n t : 4 <= n -> In 0 made -> In 1 made -> In 2 made -> In 3 made -> rings made 0 (seq 0 n) t ->
  exists u, t = 0 :: 1 :: 2 :: 3 :: u /\ rings made 4 (seq 4 (n - 4)) u.
Proof.
  intros H I0 I1 I2 I3 R. rewrite (four n H) in R.
  inversion R as [|? ? ? ? J R1|? ? ? ? ? J]; subst; [|contradiction].
  inversion R1 as [|? ? ? ? J1 R2|? ? ? ? ? J1]; subst; [|contradiction].
  inversion R2 as [|? ? ? ? J2 R3|? ? ? ? ? J2]; subst; [|contradiction].
  inversion R3 as [|? ? ? ? J3 R4|? ? ? ? ? J3]; subst; [|contradiction]. eexists. split; [reflexivity|exact R4].
Qed.

(** The changes written [12], [14] and [1234]. *)
Lemma made_of n w t : 4 <= n -> ~ cross_text t -> written t w -> unambiguous n w -> In 0 w -> (forall m, In m w -> m < 4) ->
  exists pn, pn_parse t n = Ret (Ok pn) /\ pn_stage pn = n /\ legal pn /\ forall p, In p (pn_places pn) <-> place_made n w p.
Proof.
  intros H C W U I B. destruct (pf_C36_parse_places t n w ltac:(lia) C W) as [K1 K2]. destruct (proj1 K1 U) as [pn E].
  exists pn. split; auto.
Qed.

Lemma places_12 n p : 4 <= n -> (place_made n [0; 1] p <-> p = 0 \/ p = 1 \/ (p = n - 1 /\ Nat.Odd n)).
Proof.
  intros H. unfold place_made. cbn [In]. split.
  - intros [[<-|[<-|[]]]|[(q & -> & Q1 & Q2)|[(-> & _)|(-> & m & M & B & O)]]]; try lia; auto.
    assert (m = 1) by (specialize (B 1); lia). subst m. right. right. split; auto. destruct O as [k O]. exists (k + 1). lia.
  - intros [->|[->|[-> O]]]; auto. right. right. right. split; auto. exists 1. splits; [auto|intros; lia|]. destruct O as [k O]. exists (k - 1). lia.
Qed.
Lemma places_14 n p : 4 <= n -> (place_made n [0; 3] p <-> p = 0 \/ p = 3 \/ (p = n - 1 /\ Nat.Odd n)).
Proof.
  intros H. unfold place_made. cbn [In]. split.
  - intros [[<-|[<-|[]]]|[(q & -> & Q1 & Q2)|[(-> & _)|(-> & m & M & B & O)]]]; try lia; auto.
    assert (m = 3) by (specialize (B 3); lia). subst m. right. right. split; auto. destruct O as [k O]. exists (k + 2). lia.
  - intros [->|[->|[-> O]]]; auto. right. right. right. split; auto. exists 3. splits; [auto|intros; lia|]. destruct O as [k O]. exists (k - 2). lia.
Qed.
Lemma places_1234 n p : 4 <= n -> (place_made n [0; 1; 2; 3] p <-> p < 4 \/ (p = n - 1 /\ Nat.Odd n)).
Proof.
  intros H. unfold place_made. cbn [In]. split.
  - intros [[<-|[<-|[<-|[<-|[]]]]]|[(q & -> & Q1 & Q2)|[(-> & _)|(-> & m & M & B & O)]]]; try lia; auto.
    assert (m = 3) by (specialize (B 3); lia). subst m. right. split; auto. destruct O as [k O]. exists (k + 2). lia.
  - intros [L|[-> O]]; [left; lia|]. right. right. right. split; auto. exists 3. splits; [auto|intros; lia|]. destruct O as [k O]. exists (k - 2). lia.
Qed.

Lemma unamb n w : w <> [] -> NoDup w -> (forall p, In p w -> p < n) -> (forall p q, consecutive w p q -> q = p + 2 \/ Nat.Even (q - p - 1)) -> unambiguous n w.
Proof. intros. split; auto. Qed.

Lemma parse_three n : 4 <= n -> exists plain bob single tail,
  pn_parse (s2l "12") n = Ret (Ok plain) /\ pn_parse (s2l "14") n = Ret (Ok bob) /\ pn_parse (s2l "1234") n = Ret (Ok single) /\
  Forall (fun pn => legal pn /\ pn_stage pn = n) [plain; bob; single] /\
  pn_transposition plain = Ret (0 :: 1 :: 3 :: 2 :: tail) /\ pn_transposition bob = Ret (0 :: 2 :: 1 :: 3 :: tail) /\
  pn_transposition single = Ret (0 :: 1 :: 2 :: 3 :: tail).
Proof.
  intros H.
  destruct (made_of n [0; 1] (s2l "12") H) as (plain & E1 & S1 & L1 & M1).
  { intros [K|[K|K]]; discriminate. } { apply written_filter; vm_compute; reflexivity. }
  { apply unamb; [discriminate|repeat constructor; cbn; lia|cbn; lia|]. intros p q (I1 & I2 & I3 & I4). cbn in *. right. exists 0. lia. }
  { cbn; auto. } { cbn; lia. }
  destruct (made_of n [0; 3] (s2l "14") H) as (bob & E2 & S2 & L2 & M2).
  { intros [K|[K|K]]; discriminate. } { apply written_filter; vm_compute; reflexivity. }
  { apply unamb; [discriminate|repeat constructor; cbn; lia|cbn; lia|]. intros p q (I1 & I2 & I3 & I4). cbn in *. right. exists 1. lia. }
  { cbn; auto. } { cbn; lia. }
  destruct (made_of n [0; 1; 2; 3] (s2l "1234") H) as (single & E3 & S3 & L3 & M3).
  { intros [K|[K|K]]; discriminate. } { apply written_filter; vm_compute; reflexivity. }
  { apply unamb; [discriminate|repeat constructor; cbn; lia|cbn; lia|]. intros p q (I1 & I2 & I3 & I4). cbn in *.
    assert (q = p + 1). { pose proof (I4 (p + 1)). lia. } right. exists 0. lia. }
  { cbn; auto. } { cbn; lia. }
  destruct (pn_transposition_ok plain L1) as (t1 & T1 & V1 & R1). destruct (pn_transposition_ok bob L2) as (t2 & T2 & V2 & R2).
  destruct (pn_transposition_ok single L3) as (t3 & T3 & V3 & R3). rewrite rounds_seq, S1 in R1. rewrite rounds_seq, S2 in R2. rewrite rounds_seq, S3 in R3.
  assert (N1 : forall p, In p (pn_places plain) <-> p = 0 \/ p = 1 \/ (p = n - 1 /\ Nat.Odd n)) by (intros p; rewrite M1; apply places_12; auto).
  assert (N2 : forall p, In p (pn_places bob) <-> p = 0 \/ p = 3 \/ (p = n - 1 /\ Nat.Odd n)) by (intros p; rewrite M2; apply places_14; auto).
  assert (N3 : forall p, In p (pn_places single) <-> p < 4 \/ (p = n - 1 /\ Nat.Odd n)) by (intros p; rewrite M3; apply places_1234; auto).
  assert (Od : forall p, p < 4 -> p = n - 1 -> Nat.Odd n -> False). { intros p P Q [k K]. lia. }
  assert (X1 : ~ In 2 (pn_places plain) /\ ~ In 3 (pn_places plain)).
  { split; rewrite N1; (intros [?|[?|[? ?]]]; [lia|lia|]); [apply (Od 2)|apply (Od 3)]; auto; lia. }
  assert (X2 : ~ In 1 (pn_places bob) /\ ~ In 2 (pn_places bob)).
  { split; rewrite N2; (intros [?|[?|[? ?]]]; [lia|lia|]); [apply (Od 1)|apply (Od 2)]; auto; lia. }
  destruct (rings_12 _ n t1 H (proj2 (N1 0) ltac:(auto)) (proj2 (N1 1) ltac:(auto)) (proj1 X1) (proj2 X1) R1) as (u1 & -> & U1).
  destruct (rings_14 _ n t2 H (proj2 (N2 0) ltac:(auto)) (proj1 X2) (proj2 X2) (proj2 (N2 3) ltac:(auto)) R2) as (u2 & -> & U2).
  assert (X3 : forall p, p < 4 -> In p (pn_places single)) by (intros p P; apply N3; auto).
  destruct (rings_1234 _ n t3 H (X3 0 ltac:(lia)) (X3 1 ltac:(lia)) (X3 2 ltac:(lia)) (X3 3 ltac:(lia)) R3) as (u3 & -> & U3).
  assert (u2 = u1). { apply (rings_ext _ (pn_places plain)) in U2; [|intros j J; rewrite N1, N2; split; intros [?|[?|?]]; (lia || auto)]. eapply rings_fun; eauto. }
  assert (u3 = u1). { apply (rings_ext _ (pn_places plain)) in U3; [|intros j J; rewrite N1, N3; split; [intros [?|?]|intros [?|[?|?]]]; (lia || auto)]. eapply rings_fun; eauto. }
  subst u2 u3. exists plain, bob, single, u1. splits; auto.
Qed.

Lemma tail_lt n a b c e tail : vrow n (a :: b :: c :: e :: tail) -> (forall p, p < 4 -> In p [a; b; c; e]) -> forall i p, nth_error tail i = Some p -> 4 <= p.
Proof.
  intros [(N & D & _) L] B i p I. destruct (Nat.lt_ge_cases p 4) as [Q|Q]; auto. exfalso.
  assert (T : In p tail) by (eapply nth_error_In; eauto). specialize (B p Q).
  change (a :: b :: c :: e :: tail) with ([a; b; c; e] ++ tail) in D. apply NoDup_app_elim in D as (_ & _ & D). apply (D p); auto.
Qed.

Section Three.
Context (n : nat) (plain bob single : place_not) (tail : list nat).
Hypothesis V1 : vrow n (0 :: 1 :: 3 :: 2 :: tail).
Hypothesis T1 : pn_transposition plain = Ret (0 :: 1 :: 3 :: 2 :: tail).
Hypothesis T2 : pn_transposition bob = Ret (0 :: 2 :: 1 :: 3 :: tail).
Hypothesis T3 : pn_transposition single = Ret (0 :: 1 :: 2 :: 3 :: tail).

Lemma tail_big i p : nth_error tail i = Some p -> 4 <= p.
Proof. apply (tail_lt n 0 1 3 2 tail V1). intros q Q. cbn. lia. Qed.

Lemma tail_has p : 4 <= p -> p < n -> exists i, nth_error tail i = Some p.
Proof.
  intros P Q. destruct V1 as [(_ & _ & B) L]. rewrite L in B. apply B in Q. destruct Q as [Q|[Q|[Q|[Q|Q]]]]; try lia. apply In_nth_error. auto.
Qed.

Lemma same_bob p : p < n -> (same_move plain bob p <-> p = 0 \/ 4 <= p).
Proof.
  intros P. unfold same_move, takes. rewrite T1, T2. split.
  - intros (q & (t & Et & N) & (t' & Et' & N')). injection Et as <-. injection Et' as <-.
    destruct q as [|[|[|[|q]]]]; cbn [nth_error] in *; try congruence; [injection N as <-; auto|]. right. eapply tail_big; eauto.
  - intros [->|Q].
    + exists 0. split; eexists; split; reflexivity.
    + destruct (tail_has p Q P) as [i I]. exists (4 + i). split; eexists; split; try reflexivity; exact I.
Qed.

Lemma same_single p : p < n -> (same_move plain single p <-> p < 2 \/ 4 <= p).
Proof.
  intros P. unfold same_move, takes. rewrite T1, T3. split.
  - intros (q & (t & Et & N) & (t' & Et' & N')). injection Et as <-. injection Et' as <-.
    destruct q as [|[|[|[|q]]]]; cbn [nth_error] in *; try congruence; [injection N as <-; lia|injection N as <-; lia|]. right. eapply tail_big; eauto.
  - intros [Q|Q].
    + exists p. destruct p as [|[|p]]; [| |lia]; split; eexists; split; reflexivity.
    + destruct (tail_has p Q P) as [i I]. exists (4 + i). split; eexists; split; try reflexivity; exact I.
Qed.
End Three.

Lemma same_move_refl s pn p : legal pn -> pn_stage pn = s -> p < s -> same_move pn pn p.
Proof. intros L E P. destruct (takes_ex s pn L E p P) as (q & _ & T). exists q. auto. Qed.

(** ** Leads with their last change chosen *)

Lemma leads_len {X} (body : list X) calls : length (concat (map (fun c => body ++ [c]) calls)) = length calls * (length body + 1).
Proof. induction calls as [|c calls IH]; auto. cbn [map concat length]. rewrite app_length, IH, app_length. cbn. lia. Qed.

Lemma leads_body {X} (body : list X) : forall calls j i, j < length calls -> i < length body ->
  nth_error (concat (map (fun c => body ++ [c]) calls)) (j * (length body + 1) + i) = nth_error body i.
Proof.
  induction calls as [|c calls IH]; intros j i J I; cbn [length] in J; [lia|]. cbn [map concat]. rewrite <- app_assoc. destruct j as [|j].
  - cbn [Nat.mul Nat.add]. apply nth_error_app1. auto.
  - rewrite app_assoc. rewrite nth_error_app2 by (rewrite app_length; cbn; lia). rewrite app_length. cbn [length].
    replace (S j * (length body + 1) + i - (length body + 1)) with (j * (length body + 1) + i) by lia. apply IH; auto. lia.
Qed.

Lemma leads_call {X} (body : list X) : forall calls j, nth_error (concat (map (fun c => body ++ [c]) calls)) (j * (length body + 1) + length body) = nth_error calls j.
Proof.
  induction calls as [|c calls IH]; intros j; cbn [map concat].
  - destruct (j * (length body + 1) + length body), j; reflexivity.
  - destruct j as [|j].
    + cbn [Nat.mul Nat.add]. rewrite <- app_assoc, nth_error_app2, Nat.sub_diag by lia. reflexivity.
    + rewrite nth_error_app2 by (rewrite app_length; cbn; lia). rewrite app_length. cbn [length].
      replace (S j * (length body + 1) + length body - (length body + 1)) with (j * (length body + 1) + length body) by lia. apply IH.
Qed.

Lemma leads_index (L i : nat) : exists j k, i = j * (L + 1) + k /\ (k < L \/ k = L).
Proof.
  exists (i / (L + 1)), (i mod (L + 1)). pose proof (Nat.div_mod i (L + 1) ltac:(lia)) as D. pose proof (Nat.mod_upper_bound i (L + 1) ltac:(lia)) as M. split; lia.
Qed.
