(** Property theorems C148: products of a group with other rows. *)

(* Generated from tools/props/Coset.src: the proofs behind PropsCoset.v. *)
From Coq Require Import Factorial.
From Verif Require Import Base Spec ListFacts Bell Stage Row RowFacts MulFacts GroupFacts GroupFacts2 Utils
  SameStageVec SpecVec SsvFacts Block SpecBlock BlockFacts LawFacts2 SpecMask ExtentFacts CourseExtentFacts CosetFacts.
Local Open Scope list_scope.

Lemma pf_C148_products_with_a_group :
  forall n group rows l, Forall (fun r => valid_row r /\ length r = n) group -> Forall (fun r => valid_row r /\ length r = n) rows -> NoDup group ->
    is_group_set group = Ret (Ok true) -> multi_cartesian_product [group; rows] = Ret (Ok l) ->
    length l = length group * length rows /\
    (NoDup l <-> NoDup rows /\ forall p q x, In p rows -> In q rows -> solve_xa_equals_b p q = Ret (Ok x) -> In x group -> p = q) /\
    forall g, In g group -> exists l', multi_cartesian_product [[g]; l] = Ret (Ok l') /\ Permutation l' l.
Proof.
  intros n G rs l Vg Vr N Gr E. destruct (group_facts n G Vg Gr) as [Ne S]. pose proof Vg as Fg. rewrite Forall_forall in Fg.
  rewrite (mcp_ok n G [rs]) in E by auto. cbn [fold_left] in E. injection E as <-. splits.
  - apply parts_length.
  - rewrite (parts_true n G N Ne Fg S rs Vr). pose proof Vr as Fr. rewrite Forall_forall in Fr. split; intros [A B]; split; auto.
    + intros p q x Ip Iq Q I. rewrite (solve_xa_ok n) in Q by (apply Fr; auto). injection Q as <-. auto.
    + intros p q Ip Iq I. apply (B p q (rmul q (rinv p))); auto. apply (solve_xa_ok n); apply Fr; auto.
  - intros g Ig. pose proof (mstep_vrow n G rs Vg Vr) as Vl. exists (map (rmul g) (mstep G rs)). split.
    + rewrite (mcp_ok n [g] [mstep G rs]) by (repeat constructor; auto; apply (Fg g Ig)). reflexivity.
    + apply (parts_again n G N Fg S rs g Vr Ig).
Qed.

Lemma pf_C148_extents_in_parts :
  forall n group rows l, Forall (fun r => valid_row r /\ length r = n) group -> Forall (fun r => valid_row r /\ length r = n) rows -> NoDup group ->
    is_group_set group = Ret (Ok true) -> multi_cartesian_product [group; rows] = Ret (Ok l) -> NoDup rows ->
    (forall p q x, In p rows -> In q rows -> solve_xa_equals_b p q = Ret (Ok x) -> In x group -> p = q) ->
    length group * length rows <= fact n /\
    (length group * length rows = fact n <-> forall r, valid_row r -> length r = n -> In r l).
Proof.
  intros n G rs l Vg Vr N Gr E Nr K. destruct (pf_C148_products_with_a_group n G rs l Vg Vr N Gr E) as (L & T & _).
  assert (Nl : NoDup l) by (apply T; auto). rewrite <- L. destruct (group_facts n G Vg Gr) as [Ne _].
  assert (S0 : 0 < n) by (destruct G as [|[|a g] t]; [congruence|inversion Vg as [|? ? [[Z _] _] _]; congruence|inversion Vg as [|? ? [_ Z] _]; cbn in Z; lia]).
  rewrite (mcp_ok n G [rs]) in E by auto. cbn [fold_left] in E. injection E as <-. pose proof (mstep_vrow n G rs Vg Vr) as Vl. rewrite Forall_forall in Vl.
  destruct (there_are_rows n S0) as (a & La & Na & Ia). assert (Inc : incl (mstep G rs) a) by (intros r I; apply Ia; apply (Vl r I)).
  pose proof (NoDup_incl_length Nl Inc) as Le. split; [lia|]. split.
  - intros Q r V Lr. assert (Inc2 : incl a (mstep G rs)) by (apply NoDup_length_incl; auto; lia). apply Inc2, Ia. auto.
  - intros A. assert (Inc2 : incl a (mstep G rs)) by (intros r I; apply Ia in I as [V Lr]; auto). pose proof (NoDup_incl_length Na Inc2). lia.
Qed.

Lemma pf_C148_groups_divide_groups :
  forall n small great, Forall (fun r => valid_row r /\ length r = n) great -> NoDup small -> NoDup great -> (forall x, In x small -> In x great) ->
    is_group_set small = Ret (Ok true) -> is_group_set great = Ret (Ok true) ->
    exists rows l, (forall x, In x rows -> In x great) /\ NoDup rows /\ multi_cartesian_product [small; rows] = Ret (Ok l) /\ Permutation l great.
Proof.
  intros n G H VH NG NH I GG GH. assert (VG : Forall (vrow n) G) by (apply Forall_forall; intros x Ix; rewrite Forall_forall in VH; apply VH; auto).
  destruct (group_facts n G VG GG) as [Ne SG]. destruct (group_facts n H VH GH) as [_ SH]. pose proof VG as FG. pose proof VH as FH. rewrite Forall_forall in FG, FH.
  destruct (parts_of_rows n G NG Ne FG SG (length H) H) as (rs & R1 & R2); auto.
  { intros g x Ig Ix. apply (subgroup_mul n (fun x => In x H)); auto; apply FH; auto. }
  assert (Vr : Forall (vrow n) rs) by (apply Forall_forall; intros x Ix; apply FH; auto).
  exists rs, (mstep G rs). splits; auto.
  - apply (parts_true n G NG Ne FG SG rs Vr). eapply Permutation_NoDup; [apply Permutation_sym, R2|]. auto.
  - rewrite (mcp_ok n G [rs]) by auto. auto.
Qed.
