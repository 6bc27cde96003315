(** Lemmas for C141: touches of Plain Bob. *)
From Verif Require Import Base Spec ListFacts Bell Stage Row RowFacts MulFacts GroupFacts
  Utils SameStageVec SpecVec SsvFacts Block SpecBlock BlockFacts PlaceNot SpecPn PnFacts PnFacts2 PnFacts3 LawFacts
  Class SpecClass Method SpecMethod MethodFacts SymFacts3 ShapeFacts BellPathFacts SpecHunt HuntFacts BobFacts SpecAffect AffectFacts.
From Verif Require Import MethodThms.
Local Open Scope list_scope.

(** ** The rows of a lead read from its end *)

Lemma even_succ p : Nat.even (p + 1) = negb (Nat.even p).
Proof. rewrite Nat.add_1_r, Nat.even_succ, <- Nat.negb_even. auto. Qed.

Lemma second_from_lt n b : b < n -> second_from n b < n.
Proof. intros H. unfold second_from. destruct (Nat.even b); bools. Qed.

Lemma second_start n b : b < n -> (start_of n b + start_of n (second_from n b)) mod (2 * n) = 0.
Proof.
  intros H. unfold second_from. destruct (Nat.eqb_spec b 0) as [->|N0]; [unfold start_of; cbn [Nat.even Nat.add]; apply Nat.mod_0_l; lia|].
  destruct (parts_of b) as [[E [m Em]]|[E [m Em]]]; rewrite E; unfold start_of; rewrite E.
  - assert (E1 : Nat.even (b - 1) = false) by (replace (b - 1) with (2 * (m - 1) + 1) by lia; apply even21). rewrite E1.
    replace (b + (2 * n - 1 - (b - 1))) with (2 * n) by lia. apply Nat.mod_same. lia.
  - destruct (Nat.ltb_spec (b + 1) n) as [L|L].
    + assert (E1 : Nat.even (b + 1) = true) by (replace (b + 1) with (2 * (m + 1)) by lia; apply even2). rewrite E1.
      replace (2 * n - 1 - b + (b + 1)) with (2 * n) by lia. apply Nat.mod_same. lia.
    + rewrite E. replace (2 * n - 1 - b + (2 * n - 1 - b)) with (2 * n) by lia. apply Nat.mod_same. lia.
Qed.

Lemma second_place n b t : b < n -> t < 2 * n -> hunting_place n (second_from n b) (2 * n - 1 - t) = hunting_place n b t.
Proof.
  intros H Ht. pose proof (second_start n b H) as S0. unfold hunting_place. fold (start_of n b) (start_of n (second_from n b)).
  apply out_in_fold; [|apply Nat.mod_upper_bound; lia]. apply mod_sum; [lia|].
  replace (start_of n (second_from n b) + (2 * n - 1 - t) + (start_of n b + t)) with (start_of n b + start_of n (second_from n b) + (2 * n - 1)) by lia.
  rewrite Nat.add_mod, S0 by lia. cbn [Nat.add]. rewrite Nat.mod_mod, Nat.mod_small by lia. lia.
Qed.

Lemma lead_end_hrow n t : 2 <= n -> t < 2 * n -> rmul (lead_end_row n) (hrow n t) = hrow n (2 * n - 1 - t).
Proof.
  intros H Ht. assert (Hn : 0 < n) by lia. pose proof (hrow_v n t Hn) as [V L]. pose proof (hrow_v n (2 * n - 1 - t) Hn) as [V' L'].
  apply (nth_ext _ _ 0 0); [unfold rmul; rewrite map_length; lia|]. intros p Hp. unfold rmul in Hp. rewrite map_length in Hp. rewrite nth_rmul by auto.
  set (b := nth p (hrow n t) 0). assert (B : b < n) by (unfold b; pose proof (valid_row_nth_lt _ p V) as X; rewrite L in X; apply X; lia).
  rewrite lead_end_nth by auto. assert (P : p = hunting_place n b t) by (apply hrow_only; auto; unfold b; apply nth_error_nth'; auto).
  rewrite P at 1. rewrite <- second_place by auto. symmetry. apply hrow_nth. apply second_from_lt. auto.
Qed.

(** ** Leads which end with any change at which the treble stays in front *)

Section Leads.
Context (n K : nat) (tr : nat -> row).
Hypothesis Hn : 3 <= n.
Hypothesis Vtr : forall t, vrow n (tr t).
Hypothesis Htr : forall k t, k < K -> t < 2 * n - 1 -> tr (k * (2 * n) + t) = trof n (hunting n) t.
Hypothesis Etr : forall k, k < K -> nth 0 (tr (k * (2 * n) + (2 * n - 1))) 0 = 0.

Lemma Vc t : vrow n (crs n tr t).
Proof. apply crs_v; [lia|auto]. Qed.

Lemma lead_split k t : k < K -> t < 2 * n -> crs n tr (k * (2 * n) + t) = rmul (crs n tr (k * (2 * n))) (hrow n t).
Proof.
  intros Hk. induction t as [|t IH]; intros Ht.
  - rewrite Nat.add_0_r. symmetry. apply rmul_rounds_r. apply Vc.
  - rewrite Nat.add_succ_r. cbn [crs]. rewrite IH, Htr by lia. unfold hrow. cbn [crs]. fold (hrow n t).
    apply (rmul_assoc_vrow n); [apply hrow_v; lia|apply trof_v; [lia|apply hunting_nonempty|apply hunting_legal; lia]].
Qed.

Lemma treble_heads k : k <= K -> nth 0 (crs n tr (k * (2 * n))) 0 = 0.
Proof.
  induction k as [|k IH]; intros Hk.
  - cbn [Nat.mul crs]. rewrite rounds_seq, seq_nth by lia. auto.
  - replace (S k * (2 * n)) with (S (k * (2 * n) + (2 * n - 1))) by lia. cbn [crs]. rewrite nth_rmul by (rewrite (proj2 (Vtr _)); lia).
    rewrite Etr by lia. rewrite lead_split by lia. rewrite nth_rmul by (rewrite (proj2 (hrow_v n (2 * n - 1) ltac:(lia))); lia).
    change (hrow n (2 * n - 1)) with (lead_end_row n). rewrite lead_end_nth by lia. change (second_from n 0) with 0. apply IH. lia.
Qed.

(** A repeated row gives a lead head which comes twice, or a lead head which is also the last row of a lead. *)
Lemma leads_true :
  (forall k l, k < K -> l < K -> crs n tr (k * (2 * n)) = crs n tr (l * (2 * n)) -> k = l) ->
  (forall k l, k < K -> l < K -> crs n tr (k * (2 * n)) <> crs n tr (l * (2 * n) + (2 * n - 1))) ->
  forall i j, i < K * (2 * n) -> j < K * (2 * n) -> crs n tr i = crs n tr j -> i = j.
Proof.
  intros Ha Hb i j Hi Hj E. rewrite (Nat.div_mod i (2 * n)), (Nat.div_mod j (2 * n)) in * by lia.
  pose proof (Nat.mod_upper_bound i (2 * n) ltac:(lia)) as Ht. pose proof (Nat.mod_upper_bound j (2 * n) ltac:(lia)) as Hu.
  set (k := i / (2 * n)) in *. set (l := j / (2 * n)) in *. set (t := i mod (2 * n)) in *. set (u := j mod (2 * n)) in *. clearbody k l t u.
  rewrite !(Nat.mul_comm (2 * n)) in *. assert (Hk : k < K) by nia. assert (Hl : l < K) by nia. rewrite !lead_split in E by auto.
  assert (V : forall x, vrow n (crs n tr x)) by apply Vc. assert (Vh : forall x, vrow n (hrow n x)) by (intros; apply hrow_v; lia).
  assert (P : hunting_place n 0 t = hunting_place n 0 u).
  { apply (hrow_only n _ 0 u ltac:(lia)). rewrite (nth_error_nth' _ 0) by (rewrite (proj2 (Vh u)); apply hunting_place_lt; lia). f_equal.
    assert (X : nth (hunting_place n 0 t) (rmul (crs n tr (k * (2 * n))) (hrow n t)) 0 = 0).
    { rewrite nth_rmul by (rewrite (proj2 (Vh t)); apply hunting_place_lt; lia). rewrite hrow_nth by lia. apply treble_heads. lia. }
    rewrite E in X. rewrite nth_rmul in X by (rewrite (proj2 (Vh u)); apply hunting_place_lt; lia).
    set (b := nth (hunting_place n 0 t) (hrow n u) 0) in *. 
    assert (B : b < n) by (unfold b; destruct (Vh u) as [Vu Lu]; pose proof (valid_row_nth_lt _ (hunting_place n 0 t) Vu) as Y; rewrite Lu in Y; apply Y, hunting_place_lt; lia).
    destruct (V (l * (2 * n))) as [(_ & Nd & _) Ln]. apply (proj1 (NoDup_nth _ 0) Nd); try lia. rewrite X. symmetry. apply treble_heads. lia. }
  destruct (same_place n 0 t u ltac:(lia) P) as [Q|Q]; unfold start_of in Q; cbn [Nat.even Nat.add] in Q; rewrite !Nat.mod_small in Q by auto.
  - subst u. assert (X : k = l) by (apply Ha; auto; apply (rmul_cancel_r n (hrow n t)); auto). lia.
  - exfalso. apply (Hb k l Hk Hl). rewrite lead_split by lia. apply (rmul_cancel_r n (hrow n t)); auto using valid_rmul.
    change (hrow n (2 * n - 1)) with (lead_end_row n). rewrite (rmul_assoc_vrow n) by (auto; apply Vh). rewrite lead_end_hrow by lia. replace (2 * n - 1 - t) with u by lia. auto.
Qed.

End Leads.

(** ** Leads of Plain Bob with another last change *)

Definition called_lead (n : nat) (c : place_not) : list place_not := removelast (plain_bob n) ++ [c].

Lemma bob_body n : 0 < n -> removelast (plain_bob n) = firstn (2 * n - 1) (concat (repeat (hunting n) n)).
Proof. intros H. unfold plain_bob. apply removelast_last. Qed.

Lemma bob_body_len n : 0 < n -> length (removelast (plain_bob n)) = 2 * n - 1.
Proof. intros H. rewrite bob_body by auto. rewrite firstn_length. unfold hunting. rewrite repeat2_len. lia. Qed.

Lemma bob_body_nth n t : 2 <= n -> t < 2 * n - 1 -> nth_error (removelast (plain_bob n)) t = nth_error (plain_bob n) t.
Proof.
  intros H Ht. unfold plain_bob. rewrite removelast_last. symmetry. apply nth_error_app1. rewrite firstn_length. unfold hunting. rewrite repeat2_len. lia.
Qed.

Lemma called_legal n c : 2 <= n -> legal c /\ pn_stage c = n -> Forall (fun pn => legal pn /\ pn_stage pn = n) (called_lead n c).
Proof.
  intros H Hc. apply Forall_app. split; [|constructor; auto]. pose proof (bob_legal n H) as F. unfold plain_bob in *. rewrite removelast_last.
  apply Forall_app in F. apply F.
Qed.

Lemma leads_legal n calls : 2 <= n -> Forall (fun c => legal c /\ pn_stage c = n) calls ->
  Forall (fun pn => legal pn /\ pn_stage pn = n) (concat (map (called_lead n) calls)).
Proof.
  intros H F. induction F as [|c calls Hc _ IH]; cbn [map concat]; auto. apply Forall_app. split; auto using called_legal.
Qed.

Lemma leads_trof n calls : 2 <= n -> calls <> [] -> 
  (forall k t, k < length calls -> t < 2 * n - 1 -> trof n (concat (map (called_lead n) calls)) (k * (2 * n) + t) = trof n (hunting n) t) /\
  (forall k c, nth_error calls k = Some c -> trof n (concat (map (called_lead n) calls)) (k * (2 * n) + (2 * n - 1)) =
     match pn_transposition c with Ret r => r | _ => row_rounds n end).
Proof.
  intros H N. set (body := removelast (plain_bob n)). assert (Lb : length body = 2 * n - 1) by (apply bob_body_len; lia).
  assert (Ll : length (concat (map (called_lead n) calls)) = length calls * (2 * n)) by (unfold called_lead; rewrite (leads_len body), Lb; f_equal; lia).
  split.
  - intros k t Hk Ht. unfold trof at 1. rewrite Ll, Nat.mod_small by nia. 
    pose proof (leads_body body calls k t Hk ltac:(lia)) as E. rewrite Lb in E. replace (2 * n - 1 + 1) with (2 * n) in E by lia. unfold called_lead. fold body. rewrite E.
    unfold body. rewrite bob_body_nth by lia. rewrite <- (trof_bob n t) by lia. unfold trof. rewrite bob_length, Nat.mod_small by lia. reflexivity.
  - intros k c Hc. assert (Hk : k < length calls) by (apply nth_error_Some; congruence). unfold trof. rewrite Ll, Nat.mod_small by nia.
    pose proof (leads_call body calls k) as E. rewrite Lb in E. replace (2 * n - 1 + 1) with (2 * n) in E by lia. unfold called_lead. fold body. rewrite E, Hc. reflexivity.
Qed.

(** What the calls do *)

Lemma plain_transposition n plain : 4 <= n -> pn_parse (s2l "12") n = Ret (Ok plain) -> pn_transposition plain = Ret (map (end_from n) (seq 0 n)).
Proof.
  intros H E0. destruct (made_of n [0; 1] (s2l "12") H) as (pn & E1 & S1 & L1 & M1).
  { intros [K|[K|K]]; discriminate. } { apply written_filter; vm_compute; reflexivity. }
  { apply unamb; [discriminate|repeat constructor; cbn; lia|cbn; lia|]. intros p q (I1 & I2 & I3 & I4). cbn in *. right. exists 0. lia. }
  { cbn; auto. } { cbn; lia. }
  rewrite E0 in E1. injection E1 as <-. destruct (pn_transposition_ok plain L1) as (t & T & V & R). rewrite T. f_equal. rewrite rounds_seq, S1 in R.
  apply (rings_fun _ _ _ _ _ R). apply (rings_ext (pn_places (bob_end n))); [|apply end_rings; lia].
  intros j _. rewrite M1, places_12 by auto. cbn [bob_end pn_places]. destruct (parts_of n) as [[-> [m Em]]|[-> [m Em]]]; cbn [In].
  - split; [intros [?|[?|[]]]; auto|]. intros [?|[?|[? [k ?]]]]; auto; lia.
  - split; [intros [?|[?|[?|[]]]]; auto|].
    + right. right. split; auto. exists m. lia.
    + intros [?|[?|[? _]]]; auto.
Qed.

Lemma calls_transpositions n : 4 <= n -> exists plain bob single,
  pn_parse (s2l "12") n = Ret (Ok plain) /\ pn_parse (s2l "14") n = Ret (Ok bob) /\ pn_parse (s2l "1234") n = Ret (Ok single) /\
  Forall (fun pn => legal pn /\ pn_stage pn = n) [plain; bob; single] /\
  pn_transposition bob = Ret (0 :: 2 :: 1 :: 3 :: map (first_from n) (seq 4 (n - 4))) /\
  pn_transposition single = Ret (0 :: 1 :: 2 :: 3 :: map (first_from n) (seq 4 (n - 4))).
Proof.
  intros H. destruct (parse_three n H) as (plain & bob & single & tail & E1 & E2 & E3 & F & T1 & T2 & T3). exists plain, bob, single. splits; auto.
  all: pose proof (plain_transposition n plain H E1) as T; rewrite T1 in T; rewrite four in T by auto; cbn [map] in T;
       assert (Et : tail = map (first_from n) (seq 4 (n - 4))) by
         (assert (X : forall (r r' : row), Ret r = Ret r' -> skipn 4 r = skipn 4 r') by (intros r r' X; injection X as ->; auto);
          apply X in T; cbn [skipn] in T; rewrite T; apply map_ext_in; intros p Hp; apply in_seq in Hp; unfold end_from; bools; auto);
       rewrite ?T2, ?T3, Et; reflexivity.
Qed.

(** ** The lead heads of leads with a bob or a single *)

Definition call_head (n : nat) (t : row) : row := rmul (lead_end_row n) t.

Definition bob_change (n : nat) : row := 0 :: 2 :: 1 :: 3 :: map (first_from n) (seq 4 (n - 4)).
Definition single_change (n : nat) : row := 0 :: 1 :: 2 :: 3 :: map (first_from n) (seq 4 (n - 4)).

Lemma second_shift n p : 0 < p -> second_from (2 + n) (2 + p) = 2 + second_from n p.
Proof.
  intros H. unfold second_from. replace (Nat.even (2 + p)) with (Nat.even p) by reflexivity. destruct (Nat.even p); bools.
Qed.

Lemma first_shift n p : first_from (2 + n) (2 + p) = 2 + first_from n p.
Proof. unfold first_from. replace (Nat.even (2 + p)) with (Nat.even p) by reflexivity. destruct (Nat.even p) eqn:E; bools. destruct p; [discriminate|lia]. Qed.

Lemma change_tail a b c e n p : 4 <= p -> p < n -> nth p (a :: b :: c :: e :: map (first_from n) (seq 4 (n - 4))) 0 = first_from n p.
Proof.
  intros H L. destruct p as [|[|[|[|p]]]]; try lia. cbn [nth]. rewrite (nth_indep _ 0 (first_from n 0)) by (rewrite map_length, seq_length; lia).
  rewrite map_nth, seq_nth by lia. f_equal.
Qed.

Lemma call_head_nth n t p : 2 <= n -> vrow n t -> p < n -> nth p (call_head n t) 0 = second_from n (nth p t 0).
Proof.
  intros H [V L] Hp. unfold call_head. rewrite nth_rmul by lia. apply lead_end_nth; [lia|]. pose proof (valid_row_nth_lt _ p V) as X. rewrite L in X. auto.
Qed.

(** From the fourth place on, such a lead head is that of Plain Bob on two bells fewer. *)
Lemma call_head_high n t p : 4 <= n -> vrow n t -> (t = bob_change n \/ t = single_change n) -> 0 < p -> p < n - 2 ->
  nth (2 + p) (call_head n t) 0 = 2 + nth p (bob_head (n - 2)) 0.
Proof.
  intros H V D P L. rewrite call_head_nth by (auto; lia). rewrite bob_head_nth by lia. replace n with (2 + (n - 2)) at 1 by lia.
  assert (E : nth (2 + p) t 0 = 2 + end_from (n - 2) p).
  { destruct (Nat.eq_dec p 1) as [->|N]; [destruct D as [-> | ->]; reflexivity|].
    assert (X : nth (2 + p) t 0 = first_from n (2 + p)) by (destruct D as [-> | ->]; apply change_tail; lia). rewrite X.
    replace n with (2 + (n - 2)) at 1 by lia. rewrite first_shift. unfold end_from. bools. }
  rewrite E. apply second_shift. unfold end_from. destruct (Nat.ltb_spec p 2); [lia|]. unfold first_from. destruct (Nat.even p) eqn:Ev; bools.
Qed.

Lemma bob_low n p : 4 <= n -> vrow n (bob_change n) -> p < 3 -> nth p (call_head n (bob_change n)) 0 = p.
Proof.
  intros H V L. rewrite call_head_nth by (auto; lia). destruct p as [|[|[|p]]]; try lia; cbn [bob_change nth]; unfold second_from; cbn [Nat.even Nat.eqb Nat.add]; bools.
Qed.

Lemma single_low n : 4 <= n -> vrow n (single_change n) -> nth 0 (call_head n (single_change n)) 0 = 0 /\
  nth 1 (call_head n (single_change n)) 0 = 2 /\ nth 2 (call_head n (single_change n)) 0 = 1.
Proof.
  intros H V. rewrite !call_head_nth by (auto; lia). cbn [single_change nth]; unfold second_from; cbn [Nat.even Nat.eqb Nat.add Nat.sub]. splits; auto. bools.
Qed.

Section Heads.
Context (n : nat) (t : row).
Hypothesis Hn : 4 <= n.
Hypothesis V : vrow n t.
Hypothesis D : t = bob_change n \/ t = single_change n.

Lemma lead_end_v : vrow n (lead_end_row n).
Proof. apply hrow_v. lia. Qed.

Lemma call_head_v : vrow n (call_head n t).
Proof. apply valid_rmul; auto using lead_end_v. Qed.

Lemma call_pow j c : c < n - 3 -> nth (2 + working_bell (n - 2) c) (rpow (call_head n t) j) 0 = 2 + working_bell (n - 2) ((c + j) mod (n - 3)).
Proof.
  pose proof call_head_v as [Vh L]. revert c. induction j as [|j IH]; intros c Hc; pose proof (working_lt (n - 2) c ltac:(lia) ltac:(lia)) as Lt; cbn [rpow].
  - rewrite L, rounds_seq, seq_nth by lia. rewrite Nat.add_0_r, Nat.mod_small by auto. reflexivity.
  - rewrite nth_rmul by lia. rewrite call_head_high by (auto; lia). rewrite bob_head_step by lia. replace (n - 2 - 1) with (n - 3) by lia.
    rewrite IH by (apply Nat.mod_upper_bound; lia). rewrite Nat.add_mod_idemp_l by lia. do 3 f_equal. lia.
Qed.

Lemma call_home j c : c < n - 3 -> (nth (2 + working_bell (n - 2) c) (rpow (call_head n t) j) 0 = 2 + working_bell (n - 2) c <-> j mod (n - 3) = 0).
Proof.
  intros Hc. rewrite call_pow by auto. split.
  - intros E. assert (E' : working_bell (n - 2) ((c + j) mod (n - 3)) = working_bell (n - 2) c) by lia.
    pose proof (Nat.mod_upper_bound (c + j) (n - 3) ltac:(lia)) as M. apply working_inj in E'; try lia. rewrite <- (Nat.mod_small c (n - 3)) in E' at 2 by auto.
    symmetry in E'. destruct (mod_eq_sub c (c + j) (n - 3) ltac:(lia) ltac:(lia) E') as [k Ek]. replace j with (k * (n - 3)) by lia. apply Nat.mod_mul. lia.
  - intros E. do 2 f_equal. apply Nat.mod_divides in E; [|lia]. destruct E as [k ->]. rewrite Nat.mul_comm, Nat.mod_add by lia. apply Nat.mod_small. auto.
Qed.

End Heads.

Lemma bob_pow_low n j p : 4 <= n -> vrow n (bob_change n) -> p < 3 -> nth p (rpow (call_head n (bob_change n)) j) 0 = p.
Proof.
  intros H V P. pose proof (call_head_v n _ H V) as [Vh L]. induction j as [|j IH]; cbn [rpow]; [rewrite L, rounds_seq, seq_nth by lia; auto|].
  rewrite nth_rmul by lia. rewrite bob_low by auto. auto.
Qed.

Lemma single_pow_low n j : 4 <= n -> vrow n (single_change n) -> nth 0 (rpow (call_head n (single_change n)) j) 0 = 0 /\
  nth 1 (rpow (call_head n (single_change n)) j) 0 = (if Nat.even j then 1 else 2) /\ nth 2 (rpow (call_head n (single_change n)) j) 0 = (if Nat.even j then 2 else 1).
Proof.
  intros H V. pose proof (call_head_v n _ H V) as [Vh L]. destruct (single_low n H V) as (S0 & S1 & S2).
  induction j as [|j (I0 & I1 & I2)]; cbn [rpow]; [rewrite L, rounds_seq, !seq_nth by lia; auto|].
  rewrite !nth_rmul by lia. rewrite S0, S1, S2, I0, I1, I2, Nat.even_succ, <- Nat.negb_even. destruct (Nat.even j); auto.
Qed.

Lemma row_is_rounds n r : 4 <= n -> vrow n r -> (forall p, p < 3 -> nth p r 0 = p) -> (forall c, c < n - 3 -> nth (2 + working_bell (n - 2) c) r 0 = 2 + working_bell (n - 2) c) ->
  r = row_rounds n.
Proof.
  intros H [V L] Lo Hi. apply (nth_ext _ _ 0 0); [rewrite length_rounds; auto|]. intros b Hb. rewrite L in Hb. rewrite rounds_seq, seq_nth by auto. cbn [Nat.add].
  destruct (Nat.lt_ge_cases b 3) as [B|B]; auto. destruct (working_ex (n - 2) (b - 2) ltac:(lia)) as (c & Hc & E). specialize (Hi c ltac:(lia)). rewrite E in Hi.
  replace (2 + (b - 2)) with b in Hi by lia. auto.
Qed.

Lemma bob_rounds n j : 4 <= n -> vrow n (bob_change n) -> (rpow (call_head n (bob_change n)) j = row_rounds n <-> j mod (n - 3) = 0).
Proof.
  intros H V. pose proof (call_head_v n _ H V) as Vh. split.
  - intros E. apply (call_home n (bob_change n) H V ltac:(auto) j 0 ltac:(lia)). rewrite E, rounds_seq, seq_nth by (pose proof (working_lt (n - 2) 0 ltac:(lia) ltac:(lia)); lia). reflexivity.
  - intros E. apply row_is_rounds; auto using vrow_rpow.
    + intros p P. apply bob_pow_low; auto.
    + intros c Hc. apply call_home; auto.
Qed.

Lemma single_rounds n j : 4 <= n -> vrow n (single_change n) -> (rpow (call_head n (single_change n)) j = row_rounds n <-> Nat.even j = true /\ j mod (n - 3) = 0).
Proof.
  intros H V. pose proof (call_head_v n _ H V) as Vh. pose proof (single_pow_low n j H V) as (P0 & P1 & P2). split.
  - intros E. split.
    + rewrite E, rounds_seq, seq_nth in P1 by lia. destruct (Nat.even j); auto. discriminate.
    + apply (call_home n (single_change n) H V ltac:(auto) j 0 ltac:(lia)). rewrite E, rounds_seq, seq_nth by (pose proof (working_lt (n - 2) 0 ltac:(lia) ltac:(lia)); lia). reflexivity.
  - intros [Ev E]. rewrite Ev in *. apply row_is_rounds; auto using vrow_rpow.
    + intros p P. destruct p as [|[|[|p]]]; auto. lia.
    + intros c Hc. apply call_home; auto.
Qed.

(** ** No power of the lead head is the last row of the lead *)

Lemma bob_not_end n j : 4 <= n -> vrow n (bob_change n) -> rpow (call_head n (bob_change n)) j <> lead_end_row n.
Proof.
  intros H V E. pose proof (bob_pow_low n j 1 H V ltac:(lia)) as P. rewrite E, lead_end_nth in P by lia. unfold second_from in P. cbn [Nat.eqb Nat.even Nat.add] in P.
  destruct (Nat.ltb_spec 2 n); lia.
Qed.

Lemma single_not_end n j : 6 <= n -> vrow n (single_change n) -> rpow (call_head n (single_change n)) j <> lead_end_row n.
Proof.
  intros H V E. assert (W0 : working_bell (n - 2) 0 = 1) by reflexivity. assert (W1 : working_bell (n - 2) 1 = 2) by (unfold working_bell; bools).
  pose proof (call_pow n (single_change n) ltac:(lia) V ltac:(auto) j 0 ltac:(lia)) as A. pose proof (call_pow n (single_change n) ltac:(lia) V ltac:(auto) j 1 ltac:(lia)) as B.
  rewrite E, W0, lead_end_nth in A by lia. rewrite E, W1, lead_end_nth in B by lia. cbn [Nat.add] in A, B. unfold second_from in A, B. cbn [Nat.eqb Nat.even Nat.add Nat.sub] in A, B.
  destruct (Nat.ltb_spec 4 n); [|lia]. 
  pose proof (Nat.mod_upper_bound j (n - 3) ltac:(lia)) as M. pose proof (Nat.mod_upper_bound (S j) (n - 3) ltac:(lia)) as M'.
  assert (A' : working_bell (n - 2) (j mod (n - 3)) = working_bell (n - 2) 1) by lia. assert (B' : working_bell (n - 2) (S j mod (n - 3)) = working_bell (n - 2) 0) by lia.
  apply working_inj in A'; try lia. apply working_inj in B'; try lia. replace (S j) with (1 + j) in B' by lia. rewrite <- (Nat.add_mod_idemp_r 1 j), A' in B' by lia.
  change (1 + 1) with 2 in B'. rewrite Nat.mod_small in B'; lia.
Qed.

(** ** The whole course *)

Section Course.
Context (n : nat) (c : place_not) (t : row) (K : nat).
Hypothesis Hn : 4 <= n.
Hypothesis Lc : legal c /\ pn_stage c = n.
Hypothesis Ht : pn_transposition c = Ret t.
Hypothesis V : vrow n t.
Hypothesis T0 : nth 0 t 0 = 0.

Lemma called_tr : (forall k u, u < 2 * n - 1 -> trof n (called_lead n c) (k * (2 * n) + u) = trof n (hunting n) u) /\
  (forall k, trof n (called_lead n c) (k * (2 * n) + (2 * n - 1)) = t).
Proof.
  destruct (leads_trof n [c] ltac:(lia) ltac:(discriminate)) as [A B]. cbn [map concat] in A, B. rewrite app_nil_r in A, B.
  assert (P : forall k u, trof n (called_lead n c) (k * (2 * n) + u) = trof n (called_lead n c) u).
  { intros k u. unfold trof. assert (L : length (called_lead n c) = 2 * n) by (unfold called_lead; rewrite app_length, bob_body_len by lia; cbn; lia).
    rewrite L, (Nat.add_comm _ u), Nat.mod_add by lia. auto. }
  split.
  - intros k u Hu. rewrite P. apply (A 0 u); cbn; lia.
  - intros k. rewrite P. pose proof (B 0 c eq_refl) as X. change (0 * (2 * n) + (2 * n - 1)) with (2 * n - 1) in X. rewrite X, Ht. auto.
Qed.

Lemma called_head : crs n (trof n (called_lead n c)) (2 * n) = call_head n t.
Proof.
  destruct called_tr as [A B]. assert (Vtr : forall x, vrow n (trof n (called_lead n c) x)).
  { intros x. apply trof_v; [lia|unfold called_lead; destruct (removelast (plain_bob n)); discriminate|apply called_legal; auto; lia]. }
  pose proof (lead_split n 1 (trof n (called_lead n c)) ltac:(lia) Vtr) as Q. specialize (Q (fun k u _ Hu => A k u Hu) 0 (2 * n - 1) ltac:(lia) ltac:(lia)).
  replace (2 * n) with (S (2 * n - 1)) by lia. cbn [crs]. change (0 * (2 * n) + (2 * n - 1)) with (2 * n - 1) in Q. change (0 * (2 * n)) with 0 in Q. cbn [crs] in Q. rewrite Q. pose proof (B 0) as B0. change (0 * (2 * n) + (2 * n - 1)) with (2 * n - 1) in B0. rewrite B0.
  unfold call_head, lead_end_row. f_equal. apply rmul_rounds_l_vrow. apply hrow_v. lia.
Qed.

Lemma called_course m : pn_block_to_block_from_rounds None (called_lead n c) = Ret (first_lead m) -> 0 < K ->
  (forall j, 0 < j -> (rpow (call_head n t) j = row_rounds n -> K <= j)) -> rpow (call_head n t) K = row_rounds n ->
  exists pc pars, (forall fuel, K <= fuel -> plain_course fuel m = Ret pc) /\ block_holds pc n pars (seq 0 n) /\ length pars = K * (2 * n) /\
    lead_head m = Ret (call_head n t) /\
    ((forall j, rpow (call_head n t) j <> lead_end_row n) -> NoDup (map fst pars)) /\
    (1 < K -> call_head n t = lead_end_row n -> ~ NoDup (map fst pars)).
Proof.
  intros Em HK Mi EK. assert (Hn0 : 0 < n) by lia. set (lead := called_lead n c) in *.
  assert (F : Forall (fun pn => legal pn /\ pn_stage pn = n) lead) by (apply called_legal; auto; lia).
  assert (N : lead <> []) by (unfold lead, called_lead; destruct (removelast (plain_bob n)); discriminate).
  assert (Ll : length lead = 2 * n) by (unfold lead, called_lead; rewrite app_length, bob_body_len by lia; cbn; lia).
  destruct (lead_course n lead m Hn0 N F Em) as (K' & pc & pars & pe & EK' & Pc & H & Rows). rewrite Ll in *.
  assert (Vtr : forall x, vrow n (trof n lead x)) by (intros x; apply trof_v; auto).
  assert (Ptr : forall x, trof n lead (x + 2 * n) = trof n lead x) by (intros x; rewrite <- Ll; apply trof_period; auto).
  assert (Pow : forall j, crs n (trof n lead) (j * (2 * n)) = rpow (call_head n t) j).
  { intros j. rewrite (crs_pow n (2 * n)) by (auto; lia). f_equal. apply called_head. }
  assert (EK2 : ends_after n (2 * n) (trof n lead) K).
  { split; auto. split; [rewrite Pow; auto|]. intros j Hj E. rewrite Pow in E. apply Mi in E; lia. }
  pose proof (ends_fun _ _ _ _ _ EK' EK2) as ->.
  destruct (lead_crs n lead Hn0 N F (@None str)) as (b0 & ars & E0 & H0 & M0 & _). rewrite Em in E0. injection E0 as <-. rewrite Ll in *.
  pose proof called_head as Hd. fold lead in Hd. rewrite Hd in H0.
  assert (Lp : length pars = K * (2 * n)) by (rewrite <- (map_length fst), Rows; unfold course_rows; rewrite map_length, seq_length; auto).
  assert (I : is_identity (hd [] (all_rows_of ars (call_head n t)))).
  { unfold all_rows_of. rewrite M0. unfold crows. replace (2 * n) with (S (2 * n - 1)) by lia. cbn [seq map app hd crs]. apply rounds_identity. }
  assert (Epe : pe = seq 0 n).
  { destruct (pf_C59_plain_course m n ars _ H0 I) as (K' & pc' & pars' & pe' & HK' & (e & Pe & Ie) & Mi' & Fu & Hp & Epe & _).
    pose proof (Fu (K' + K) ltac:(lia)) as E1. rewrite (Pc (K' + K) ltac:(lia)) in E1. injection E1 as <-.
    assert (X : pe' = pe) by (destruct H as (_ & _ & _ & _ & _ & _ & X); destruct Hp as (_ & _ & _ & _ & _ & _ & Y); congruence). subst pe'.
    apply identity_rounds in Epe. destruct H as (_ & _ & _ & _ & L & _). rewrite L in Epe. rewrite Epe. apply rounds_seq. }
  subst pe. exists pc, pars. pose proof (valid_rmul n (lead_end_row n) t (hrow_v n _ Hn0) V) as Vh. fold (call_head n t) in Vh.
  destruct called_tr as [A B]. fold lead in A, B.
  assert (Sp : forall k u, k < K -> u < 2 * n -> crs n (trof n lead) (k * (2 * n) + u) = rmul (crs n (trof n lead) (k * (2 * n))) (hrow n u)).
  { intros k u Hk Hu. apply (lead_split n K); auto; lia. }
  splits; auto.
  - unfold lead_head. apply holds_brep in H0. rewrite (brep_leftover _ _ _ _ H0). auto.
  - intros Ne. rewrite Rows. unfold course_rows. apply NoDup_map_inj; [|apply seq_NoDup]. intros x y Hx Hy. apply in_seq in Hx, Hy.
    apply (leads_true n K); auto; try lia.
    + intros k Hk. rewrite B. auto.
    + assert (Le : forall k l, k < K -> l < K -> k <= l -> crs n (trof n lead) (k * (2 * n)) = crs n (trof n lead) (l * (2 * n)) -> k = l).
      { intros k l Hk Hl L E. rewrite !Pow in E. destruct (Nat.eq_dec k l) as [|Nq]; auto. exfalso.
        assert (R : rpow (call_head n t) (l - k) = row_rounds n).
        { apply (rmul_cancel_l n (rpow (call_head n t) k)); auto using vrow_rpow, valid_rounds. rewrite <- (rpow_add n) by auto. replace (k + (l - k)) with l by lia.
          rewrite <- E. symmetry. apply rmul_rounds_r. apply vrow_rpow; auto. }
        apply Mi in R; lia. }
      intros k l Hk Hl E. destruct (Nat.le_ge_cases k l); [|symmetry]; apply Le; auto.
    + intros k l Hk Hl E. rewrite Sp in E by lia. change (hrow n (2 * n - 1)) with (lead_end_row n) in E. rewrite !Pow in E. apply (Ne (K - l + k)). rewrite (rpow_add n), E by auto.
      rewrite <- (rmul_assoc_vrow n) by (auto using vrow_rpow; apply hrow_v; lia). rewrite <- (rpow_add n) by auto. replace (K - l + l) with K by lia. rewrite EK.
      apply rmul_rounds_l_vrow. apply hrow_v. lia.
  - intros K1 E Nd. rewrite Rows in Nd. unfold course_rows in Nd.
    assert (X : 2 * n - 1 = 2 * n); [|lia]. apply (proj1 (NoDup_nth_error _) Nd); [rewrite map_length, seq_length; nia|].
    rewrite !nth_error_map, !(nth_error_nth' _ 0), !seq_nth by (rewrite ?seq_length; nia). cbn [option_map Nat.add]. f_equal.
    rewrite Hd, E. pose proof (Sp 0 (2 * n - 1) ltac:(lia) ltac:(lia)) as S0. change (0 * (2 * n) + (2 * n - 1)) with (2 * n - 1) in S0. change (0 * (2 * n)) with 0 in S0. cbn [crs] in S0. rewrite S0. apply rmul_rounds_l_vrow. apply hrow_v. lia.
Qed.

End Course.
