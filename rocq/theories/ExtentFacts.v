(** Lemmas for counting over all the rows of a stage. *)
From Verif Require Import Base Bell Spec Stage Row Utils SameStageVec Block PlaceNot Mask Music SpecMask ListFacts BellFacts RowFacts MulFacts GroupFacts
  SsvFacts BlockFacts ClassFacts MusicFacts MusicFacts2 SymFacts SpecRuns RunFacts.
From Coq Require Import Permutation.
Local Open Scope list_scope.

Lemma list_sum_cons_map {A} (f g : A -> nat) l : list_sum (map (fun x => f x + g x) l) = list_sum (map f l) + list_sum (map g l).
Proof. induction l as [|x l IH]; cbn; auto. change (fold_right Nat.add 0) with list_sum in *. lia. Qed.

Lemma list_sum_zero {A} (l : list A) : list_sum (map (fun _ => 0) l) = 0.
Proof. induction l; cbn; auto. Qed.

Lemma list_sum_const {A} (f : A -> nat) c l : (forall x, In x l -> f x = c) -> list_sum (map f l) = length l * c.
Proof.
  induction l as [|x l IH]; intros H; [reflexivity|]. cbn. change (fold_right Nat.add 0) with list_sum in *.
  rewrite IH, (H x); cbn; auto. intros y Hy. apply H. right. auto.
Qed.

Lemma double_count {A B} (f : A -> B -> bool) (ps : list A) (rs : list B) :
  list_sum (map (fun r => length (filter (fun p => f p r) ps)) rs) = list_sum (map (fun p => length (filter (f p) rs)) ps).
Proof.
  induction ps as [|p ps IH]; cbn; [apply list_sum_zero|]. change (fold_right Nat.add 0) with list_sum in *. rewrite <- IH.
  transitivity (list_sum (map (fun r => (if f p r then 1 else 0) + length (filter (fun p => f p r) ps)) rs)).
  - f_equal. apply map_ext. intros r. destruct (f p r); reflexivity.
  - rewrite list_sum_cons_map. f_equal. clear IH. induction rs as [|r rs IHr]; cbn; auto. change (fold_right Nat.add 0) with list_sum in *.
    rewrite IHr. destruct (f p r); reflexivity.
Qed.

Lemma there_are_unique n m P : there_are n P -> there_are m P -> n = m.
Proof.
  intros (l & <- & N & H) (k & <- & N' & H'). apply Permutation_length, NoDup_Permutation; auto.
  intros r. rewrite H, H'. reflexivity.
Qed.

Lemma filter_there_are (l : list (list nat)) f P n : NoDup l -> there_are n P -> (forall r, P r -> In r l) ->
  (forall r, In r l -> (f r = true <-> P r)) -> length (filter f l) = n.
Proof.
  intros N T I H. apply (there_are_unique _ _ P); auto. exists (filter f l). splits; auto; [apply NoDup_filter; auto|].
  intros r. rewrite filter_In. split; [intros [Hr F]; apply H; auto|intros Pr; split; auto; apply H; auto].
Qed.

Lemma there_are_iff n P Q : (forall r, P r <-> Q r) -> there_are n P -> there_are n Q.
Proof. intros H (l & E & N & I). exists l. splits; auto. intros r. rewrite I. apply H. Qed.

Lemma bells_written_bells g es : bells_written (map RBell g ++ es) = g ++ bells_written es.
Proof. induction g; cbn; f_equal; auto. Qed.
Lemma count_any_bells g es : count_any (map RBell g ++ es) = count_any es.
Proof. induction g; cbn; auto. Qed.
Lemma count_glob_bells g es : count_glob (map RBell g ++ es) = count_glob es.
Proof. induction g; cbn; auto. Qed.

Lemma length_segs s len : length (segs s len) = 2 * (s - len + 1).
Proof.
  unfold segs. rewrite <- (seq_length (s - len + 1) 0) at 2. induction (seq 0 (s - len + 1)) as [|i l IH]; cbn; auto. rewrite IH. lia.
Qed.

Lemma segs_bells s len g : len <= s -> In g (segs s len) -> NoDup g /\ Forall (fun b => b < s) g /\ length g = len.
Proof.
  intros L H. pose proof (segs_length _ _ _ H) as Lg. apply In_segs in H as (i & Hi & [-> | ->]); auto; splits; auto.
  - apply seq_NoDup.
  - apply Forall_forall. intros b Hb. apply in_seq in Hb. lia.
  - apply NoDup_rev, seq_NoDup.
  - apply Forall_forall. intros b Hb. apply in_rev, in_seq in Hb. lia.
Qed.

Lemma binomial_1 n : binomial n 1 = n.
Proof. induction n as [|n IH]; auto. cbn [binomial]. rewrite IH. destruct n; reflexivity. Qed.
