(** What caught panics leave behind. *)
From Verif Require Import Base Bell Stage Parity Row Utils SameStageVec Block PlaceNot Mask Class Method Program Unwind
  Spec SpecVec SpecBlock SpecPn SpecProg ListFacts BellFacts RowFacts MulFacts GroupFacts ParityFacts SsvFacts SsvFacts2 BlockFacts
  PnFacts PnFacts2 SafeFacts SafeFacts2 UnwindFacts.
Local Open Scope list_scope.

Lemma left_not_panic {S A} (o : outcome S A) d : forget o <> Panic -> left_behind o d = d.
Proof. destruct o; cbn; congruence. Qed.

Definition returns {A} (e : exec A) : Prop := match e with Panic => False | _ => True end.
Lemma returns_left {S A} (o : outcome S A) d : returns (forget o) -> left_behind o d = d.
Proof. intros H. apply left_not_panic. intros E. rewrite E in H. exact H. Qed.
Lemma returns_bind {A B} (e : exec A) (f : A -> exec B) : returns e -> (forall a, e = Ret a -> returns (f a)) -> returns (bind e f).
Proof. destruct e; cbn; auto. Qed.

(** ** Rows *)

Lemma returns_mul_into a b o : valid_row a -> valid_row b -> returns (mul_into a b o).
Proof.
  intros Va Vb. destruct (same_stage_cases a b Va Vb) as [N|[Ha Hb]].
  - rewrite mul_into_err by auto. exact I.
  - erewrite mul_into_ok by eauto. exact I.
Qed.

Lemma returns_mul_into_row a b o : valid_row a -> valid_row b -> valid_row o -> returns (mul_into_row a b o).
Proof.
  intros Va Vb Vo. destruct (Nat.eq_dec (length a) (length b)) as [E|E].
  - destruct (Nat.eq_dec (length a) (length o)) as [E'|E'].
    + assert (Ha : vrow (length o) a) by (split; auto). assert (Hb : vrow (length o) b) by (split; auto; lia).
      rewrite (mul_into_row_ok (length o)) by auto. exact I.
    + unfold mul_into_row. rewrite !valid_row_stage by auto. cbn [bind]. unfold test_err.
      rewrite (proj2 (Nat.eqb_eq _ _) E). rewrite (proj2 (Nat.eqb_neq _ _) E'). exact I.
  - unfold mul_into_row. rewrite !valid_row_stage by auto. cbn [bind]. unfold test_err.
    rewrite (proj2 (Nat.eqb_neq _ _) E). exact I.
Qed.

Lemma returns_inv_into a o : valid_row a -> valid_row o -> returns (inv_into a o).
Proof.
  intros V Vo. destruct (Nat.eq_dec (length o) (length a)) as [E|E].
  - rewrite inv_into_ok by auto. exact I.
  - rewrite inv_into_err; auto; [|apply Vo]. exact I.
Qed.

Lemma returns_inv_into_buf a o : valid_row a -> valid_row o -> returns (inv_into_buf a o).
Proof. intros V Vo. rewrite inv_into_buf_ok; auto; [|apply Vo]. exact I. Qed.

Lemma returns_parity_loop fuel : forall r i n, valid_row r -> returns (parity_loop fuel r i n).
Proof.
  induction fuel as [|fuel IH]; intros r i n V; cbn [parity_loop]; [exact I|].
  rewrite valid_row_stage by auto. cbn [bind]. destruct (Nat.ltb_spec i (length r)); [|exact I].
  rewrite (idx_ret 0) by auto. cbn [bind]. destruct (_ =? i); [apply IH; auto|].
  assert (Hc : nth i r 0 < length r) by (apply valid_row_nth_lt; auto).
  rewrite row_swap_ok by auto. cbn [bind]. apply IH. eapply swapped_valid; [|apply row_swap_swapped]; auto.
Qed.

Lemma returns_parity fuel r : valid_row r -> returns (row_parity fuel r).
Proof. intros V. apply returns_bind; [apply returns_parity_loop; auto|]. intros [] _. exact I. Qed.

Lemma returns_permute pn r : legal pn -> valid_row r -> returns (pn_permute pn r).
Proof.
  intros L V. destruct (Nat.eq_dec (length r) (pn_stage pn)) as [E|E].
  - destruct (pn_permute_ok pn r L V E) as (r' & -> & _). exact I.
  - destruct (pn_permute_err pn r V E) as [Er _]. rewrite Er. exact I.
Qed.

Lemma acc_accumulate_left r a : valid_row r -> okacc a -> left_behind (acc_accumulate_b r a) a = a.
Proof.
  intros V [H1 H2]. apply returns_left. rewrite forget_acc_accumulate. apply returns_bind; [apply returns_mul_into; auto|].
  intros [t [|]] _; exact I.
Qed.
Lemma acc_pre_accumulate_left r a : valid_row r -> okacc a -> left_behind (acc_pre_accumulate_b r a) a = a.
Proof.
  intros V [H1 H2]. apply returns_left. rewrite forget_acc_pre_accumulate. apply returns_bind; [apply returns_mul_into; auto|].
  intros [t [|]] _; exact I.
Qed.

Lemma acc_mul_assign_left r a : valid_row r -> okacc a -> left_behind (acc_mul_assign_b r a) a = a.
Proof.
  intros V [H1 H2]. unfold acc_mul_assign_b, andthen. destruct (acc_accumulate_b r a) as [a' [u|e]|a'| |] eqn:E; cbn; auto.
  - (* an error leaves the accumulator as it was *)
    pose proof (forget_acc_accumulate r a) as F. rewrite E in F. cbn in F.
    unfold acc_accumulate in F. destruct (same_stage_cases (acc_total a) r H1 V) as [N|[Ha Hb]].
    + rewrite mul_into_err in F by auto. cbn in F. injection F as -> _. destruct a; reflexivity.
    + erewrite mul_into_ok in F by eauto. cbn in F. discriminate.
  - pose proof (acc_accumulate_left r a V (conj H1 H2)) as L. rewrite E in L. exact L.
Qed.

(** ** Buffers *)

Lemma ssv_extend_left rows v : Forall valid_row rows -> left_behind (ssv_extend_b rows false v) v = v.
Proof.
  intros F. apply returns_left. rewrite forget_extend. apply returns_bind; [|intros [] _; exact I].
  generalize (length (ssv_bells v)) as n. generalize (ssv_bells v) as bs. induction F as [|r rows V F IH]; intros bs n; cbn [ssv_extend_loop]; [exact I|].
  rewrite valid_row_stage by auto. cbn [bind]. destruct (test_err _ _); [apply IH|exact I].
Qed.

Lemma extend_range_transposed_left t o lo hi v : okv v -> okv o -> valid_row t -> ssv_stage v = ssv_stage o ->
  left_behind (ssv_extend_range_transposed_b t o lo hi v) v = v.
Proof.
  intros [rs R] [rs' R'] V E. rewrite <- E in R'.
  destruct (Nat.eq_dec (length t) (ssv_stage v)) as [Et|Et].
  - assert (Ht : vrow (ssv_stage v) t) by (split; auto).
    destruct (le_dec (range_start lo) (range_end hi (length rs'))) as [H1|H1];
      [destruct (le_dec (range_end hi (length rs')) (length rs')) as [H2|H2]|].
    + destruct (ssv_extend_range_transposed_ok _ _ _ _ _ _ lo hi R Ht R' H1 H2) as (v' & Ev & _).
      apply returns_left. rewrite forget_extend_range_transposed, Ev. exact I.
    + unfold ssv_extend_range_transposed_b, andthen, look. rewrite valid_row_stage by auto. cbn [reading].
      destruct (test_err _ _); [|reflexivity]. erewrite to_bell_range_ok by eauto. cbn [reading].
      unfold slice. rewrite (rep_length _ _ _ R'). rewrite (proj2 (Nat.leb_gt (range_end hi (length rs') * ssv_stage v) _)).
      * rewrite andb_false_r. reflexivity.
      * pose proof (rep_pos _ _ _ R). nia.
    + unfold ssv_extend_range_transposed_b, andthen, look. rewrite valid_row_stage by auto. cbn [reading].
      destruct (test_err _ _); [|reflexivity]. erewrite to_bell_range_ok by eauto. cbn [reading].
      unfold slice. rewrite (proj2 (Nat.leb_gt (range_start lo * ssv_stage v) _)); [reflexivity|].
      pose proof (rep_pos _ _ _ R). nia.
  - apply returns_left. rewrite forget_extend_range_transposed. erewrite ssv_extend_range_transposed_err; eauto. exact I.
Qed.

Lemma from_within_left lo hi t v : okv v -> valid_row t ->
  left_behind (ssv_extend_transposed_from_within_b lo hi t v) v = v.
Proof.
  intros [rs R] V. destruct (Nat.eq_dec (length t) (ssv_stage v)) as [Et|Et].
  - assert (Ht : vrow (ssv_stage v) t) by (split; auto).
    destruct (lt_dec (range_start lo) (range_end hi (length rs))) as [H1|H1].
    + destruct (lt_dec (range_start lo) (length rs)) as [H2|H2].
      * destruct (ssv_from_within_any _ _ _ _ lo hi R Ht H1) as [K _]. destruct (K H2) as (v' & rs' & Ev & _).
        apply returns_left. rewrite forget_from_within, Ev. exact I.
      * unfold ssv_extend_transposed_from_within_b. unfold look at 1. unfold andthen at 1 2. rewrite valid_row_stage by auto. cbn [reading].
        destruct (test_err _ _); [|reflexivity]. unfold andthen at 1. erewrite to_bell_range_ok by eauto. cbn [reading].
        unfold range. replace (range_end hi (length rs) * ssv_stage v - range_start lo * ssv_stage v) with ((range_end hi (length rs) - range_start lo) * ssv_stage v) by nia.
        destruct ((range_end hi (length rs) - range_start lo) * ssv_stage v) as [|k] eqn:K; [pose proof (rep_pos _ _ _ R); nia|]. cbn [seq each]. unfold andthen, look, idx.
        rewrite (proj2 (nth_error_None _ _)); [reflexivity|]. rewrite (rep_length _ _ _ R). nia.
    + apply returns_left. rewrite forget_from_within. erewrite ssv_from_within_empty; eauto; [exact I|lia].
  - apply returns_left. rewrite forget_from_within. erewrite ssv_from_within_err; eauto. exact I.
Qed.

Lemma pop_b_as v : ssv_pop_b v =
  match ssv_pop v with Ret (v', r) => Done v' r | Panic => Unwound v | Ub => BadAccess | NoFuel => OutOfFuel end.
Proof. unfold ssv_pop_b, andthen, look. destruct (ssv_pop v) as [[]| | |]; reflexivity. Qed.

Lemma okv_edit_left st v i c : okv v -> (forall r, valid_row r -> vrow (length r) (change_row_left st c r)) -> okv (ssv_edit_left st v i c).
Proof.
  intros Hv Hc. pose proof Hv as [rs R]. unfold ssv_edit_left. destruct (ssv_get v i) as [r|] eqn:E; auto.
  erewrite ssv_get_ok in E by eauto. assert (Vr : vrow (ssv_stage v) r) by (exact (nth_valid _ _ _ _ (rep_Forall _ _ _ R) E)).
  destruct (ssv_edit_ok _ _ _ i (fun r => Ret (change_row_left st c r)) r (change_row_left st c r) R E eq_refl) as (v' & Ev & R').
  { rewrite <- (proj2 Vr). apply Hc, Vr. }
  unfold ssv_edit in Ev. erewrite ssv_get_ok in Ev by eauto. rewrite E in Ev. cbn [get_range_of_row bind] in *.
  injection Ev as Ev. unfold get_range_of_row in *. rewrite Ev. eapply rep_okv; eauto.
Qed.

(** ** Blocks *)

Section Blocks.
Context {A : Type}.
Implicit Types (b o : block A) (ri : repeat_iter A).

Lemma okb_extend_range_left o lo hi b : okb b -> okb o -> okb (left_behind (block_extend_range_b o lo hi b) b).
Proof.
  intros Hb Ho. unfold block_extend_range_b. destruct (clamp_range lo hi (block_len o)) as [start end_].
  unfold andthen at 1. pose proof (okb_get_row o start Ho) as Vf. destruct (block_get_row o start) as [first|]; cbn [unwrap reading]; [|exact Hb].
  unfold look. unfold andthen at 1. unfold andthen at 1. pose proof (safe_leftover b Hb) as Vl. destruct (block_leftover_row b) as [lft| | |]; cbn [reading]; try exact Hb.
  cbn in Vf, Vl. unfold andthen at 1. pose proof (safe_solve_xa first lft (proj1 Vf) (proj1 Vl)) as Vt.
  destruct (solve_xa_equals_b first lft) as [[t|e]| | |]; cbn [reading]; try exact Hb. cbn in Vt. destruct Vt as [[Vt _] Et].
  unfold rows_of_block, inside. unfold andthen at 1.
  pose proof (safe_pop (blk_rows b) Hb) as Hp. rewrite pop_b_as.
  destruct (ssv_pop (blk_rows b)) as [[rows x]| | |]; cbn [reading fst snd] in *; try exact Hb.
  destruct Hp as (Hr & Es & _). cbn [blk_rows blk_annots]. unfold andthen at 1. cbn [blk_rows blk_annots].
  assert (E1 : ssv_stage rows = ssv_stage (blk_rows o)).
  { cbn in Es. rewrite Es. rewrite (proj2 Vf), (proj2 Vl) in Et. unfold block_stage in *. lia. }
  pose proof (extend_range_transposed_left t (blk_rows o) (Included start) (Excluded (end_ + 1)) rows Hr Ho Vt E1) as L.
  pose proof (safe_extend_range_transposed rows t (blk_rows o) (Included start) (Excluded (end_ + 1)) Hr Vt Ho E1) as S.
  rewrite <- forget_extend_range_transposed in S.
  destruct (ssv_extend_range_transposed_b t (blk_rows o) (Included start) (Excluded (end_ + 1)) rows) as [v' res|v'| |]; cbn in *; auto.
  - unfold andthen. destruct res; cbn; auto. apply S.
  - subst. exact Hr.
Qed.

Lemma okb_from_within_left lo hi b : okb b -> okb (left_behind (block_extend_from_within_b lo hi b) b).
Proof.
  intros Hb. unfold block_extend_from_within_b. unfold look. unfold andthen at 1. destruct (clamp_range lo hi (block_len b)) as [start end_].
  unfold andthen at 1. pose proof (okb_get_row b start Hb) as Vf. destruct (block_get_row b start) as [first|]; cbn [unwrap reading]; [|exact Hb].
  unfold andthen at 1. pose proof (safe_leftover b Hb) as Vl. destruct (block_leftover_row b) as [lft| | |]; cbn [reading]; try exact Hb.
  cbn in Vf, Vl. unfold andthen at 1. pose proof (safe_solve_xa first lft (proj1 Vf) (proj1 Vl)) as Vt.
  destruct (solve_xa_equals_b first lft) as [[t|e]| | |]; cbn [reading]; try exact Hb. cbn in Vt. destruct Vt as [[Vt _] Et].
  unfold andthen at 1. cbn [unwrap_res reading]. unfold rows_of_block, inside. unfold andthen at 1.
  pose proof (from_within_left (Included (start + 1)) (Excluded (end_ + 1)) t (blk_rows b) Hb Vt) as L.
  pose proof (safe_from_within (blk_rows b) t (Included (start + 1)) (Excluded (end_ + 1)) Hb Vt) as S.
  rewrite <- forget_from_within in S.
  destruct (ssv_extend_transposed_from_within_b (Included (start + 1)) (Excluded (end_ + 1)) t (blk_rows b)) as [v' res|v'| |]; cbn in *; auto.
  - unfold andthen. destruct res; cbn; try apply S. destruct (slice _ _ _); cbn; try apply S; auto.
  - subst. exact Hb.
Qed.

Lemma ii_next_left (it : inner_iter A) : oki (ii_rows it) -> oki (ii_rows (left_behind (ii_next_b it) it)).
Proof.
  intros H. unfold ii_next_b, look. unfold andthen at 1 2. pose proof (safe_it_next (ii_rows it) H) as S.
  destruct (it_next (ii_rows it)) as [[o rows']| | |]; cbn [reading]; auto. destruct S as (_ & Hr & _). cbn in Hr.
  unfold andthen, write. destruct o; destruct (ii_annots it); cbn; auto.
Qed.

Lemma okri_intro ri : valid_row (ri_head ri) -> oki (ii_rows (ri_iter ri)) -> okb (ri_block ri) -> okri ri.
Proof. intros; split; auto. Qed.

Lemma next_untransposed_left ri : okri ri -> okri (left_behind (next_untransposed_row_b ri) ri).
Proof.
  intros (Vh & Hi & Hb). unfold next_untransposed_row_b, iter_of_repeat, inside. unfold andthen at 1.
  pose proof (ii_next_left (ri_iter ri) Hi) as L. pose proof (safe_ii_next (ri_iter ri) Hi) as S.
  pose proof (forget_ii_next (ri_iter ri)) as F.
  destruct (ii_next_b (ri_iter ri)) as [it o|it| |]; cbn [left_behind] in *; [|apply okri_intro; cbn; auto ..].
  cbn [forget] in F. destruct (ii_next (ri_iter ri)) as [[o' it']| | |]; cbn in F; try discriminate. injection F as <- <-. destruct S as [So Sit].
  cbn [fst snd] in *. destruct o as [x|]; [cbn; apply okri_intro; cbn; auto|].
  unfold look. unfold andthen at 1. cbn [ri_block ri_head ri_iter]. unfold andthen at 1. pose proof (safe_leftover (ri_block ri) Hb) as Vl.
  destruct (block_leftover_row (ri_block ri)) as [lft| | |]; cbn [reading left_behind]; try (apply okri_intro; cbn; auto; fail).
  unfold andthen at 1. pose proof (safe_row_mul (ri_head ri) lft Vh (proj1 Vl)) as Vm.
  destruct (row_mul (ri_head ri) lft) as [h| | |]; cbn [reading left_behind]; try (apply okri_intro; cbn; auto; fail). cbn in Vm.
  unfold write. unfold andthen at 1. unfold andthen at 1. pose proof (safe_get_iter (ri_block ri) Hb) as Sg.
  destruct (get_iter (ri_block ri)) as [it2| | |]; cbn [reading left_behind]; try (apply okri_intro; cbn; auto; fail). cbn in Sg.
  unfold andthen at 1. cbn [ri_iter ri_head ri_block]. pose proof (ii_next_left it2 Sg) as L2.
  destruct (ii_next_b it2) as [it3 o3|it3| |]; cbn in *; apply okri_intro; cbn; auto.
Qed.

Lemma next_untransposed_done ri ri' (o : option (nat * (row * A))) : okri ri -> next_untransposed_row_b ri = Done ri' o ->
  okri ri' /\ okopt (fun x => valid_row (fst (snd x))) o.
Proof.
  intros H E. pose proof (safe_next_untransposed ri H) as S. pose proof (forget_next_untransposed ri) as F. rewrite E in F. cbn in F.
  destruct (next_untransposed_row ri) as [[o' r']| | |]; cbn in F; try discriminate. injection F as <- <-. destruct S; auto.
Qed.

Lemma repeat_next_left ri : okri ri -> okri (left_behind (repeat_iter_next_b ri) ri).
Proof.
  intros H. unfold repeat_iter_next_b. unfold andthen at 1. pose proof (next_untransposed_left ri H) as L.
  destruct (next_untransposed_row_b ri) as [ri' o|ri'| |] eqn:E; auto. apply next_untransposed_done in E as [H' Ho]; auto.
  destruct o as [[i [r a]]|]; [|exact H]. unfold andthen, look. destruct (row_mul _ _); cbn; auto.
Qed.

Definition okpair (p : repeat_iter A * row) : Prop := okri (fst p) /\ valid_row (snd p).
Lemma okpair_intro ri r : okri ri -> valid_row r -> okpair (ri, r). Proof. split; auto. Qed.
Hint Resolve okpair_intro : core.

Lemma repeat_next_into_left ri out : okri ri -> valid_row out ->
  okpair (left_behind (repeat_iter_next_into_b (ri, out)) (ri, out)).
Proof.
  intros H V. unfold repeat_iter_next_into_b. unfold andthen at 1, inside at 1. cbn [fst snd].
  pose proof (next_untransposed_left ri H) as L.
  destruct (next_untransposed_row_b ri) as [ri' o|ri'| |] eqn:E; [|cbn in *; auto ..]. apply next_untransposed_done in E as [H' Ho]; auto.
  destruct o as [[i [r a]]|]; [|cbn; auto]. unfold andthen, look, inside. cbn [fst snd]. cbn in Ho.
  pose proof (forget_mul_into (ri_head ri') r out) as F. pose proof (safe_mul_into (ri_head ri') r out (proj1 H') Ho V) as S.
  pose proof (returns_mul_into (ri_head ri') r out (proj1 H') Ho) as Rt. rewrite <- F in S, Rt.
  destruct (mul_into_b (ri_head ri') r out) as [o' res|o'| |]; cbn in *; auto; try (exfalso; assumption).
  destruct res; cbn; auto.
Qed.
End Blocks.

(** ** Programs *)

Lemma permute_loop_left fuel s : forall places i r n, vrow n r ->
  match permute_loop_b fuel s places i r with Done r' _ | Unwound r' => vrow n r' | _ => True end.
Proof.
  induction fuel as [|fuel IH]; intros places i r n V; cbn [permute_loop_b]; [exact I|].
  destruct (i <? s); [|exact V].
  assert (K : match (r <~ look;; r' <~ reading (row_swap r i (i + 1));; write r' ;~ permute_loop_b fuel s places (i + 2)) r with
              | Done r' _ | Unwound r' => vrow n r' | _ => True end).
  { unfold andthen, look. pose proof (safe_row_swap r i (i + 1) (proj1 V)) as S. destruct (row_swap r i (i + 1)) as [r'| | |]; cbn; auto.
    apply IH. cbn in S. rewrite (proj2 V) in S. exact S. }
  destruct places as [|p places]; [exact K|]. destruct (p =? i); [apply IH; auto|exact K].
Qed.

Lemma pn_permute_left pn r : valid_row r -> vrow (length r) (left_behind (pn_permute_b pn r) r).
Proof.
  intros V. assert (Vr : vrow (length r) r) by (apply vrow_intro; auto). unfold pn_permute_b, look. unfold andthen at 1 2.
  rewrite valid_row_stage by auto. cbn [reading]. destruct (test_err _ _); [|exact Vr]. unfold andthen.
  pose proof (permute_loop_left (S (pn_stage pn)) (pn_stage pn) (pn_places pn) 0 r (length r) Vr) as L.
  destruct (permute_loop_b _ _ _ _ _); cbn; auto.
Qed.

Section Prog.
Context (st : list value) (Hst : okst st).

Lemma change_row_left_ok c r : valid_row r -> vrow (length r) (change_row_left st c r).
Proof.
  intros V. assert (Vr : vrow (length r) r) by (apply vrow_intro; auto).
  destruct c as [a b|fuel|i j|i|p]; cbn [change_row_left]; auto.
  - rewrite returns_left; auto. rewrite forget_parity. apply returns_parity; auto.
  - destruct (nth_error st i) as [[]|] eqn:Ei; auto. destruct (nth_error st j) as [[]|] eqn:Ej; auto.
    apply (okst_nth st Hst) in Ei, Ej. cbn in *. rewrite returns_left; auto. rewrite forget_mul_into_row. apply returns_mul_into_row; auto.
  - destruct (nth_error st i) as [[]|] eqn:Ei; auto. apply (okst_nth st Hst) in Ei. cbn in *.
    rewrite returns_left; auto. rewrite forget_inv_into. apply returns_inv_into; auto.
  - destruct (nth_error st p) as [[]|] eqn:Ei; auto. apply pn_permute_left; auto.
Qed.

Ltac getv := match goal with |- context [nth_error st ?i] => destruct (nth_error st i) as [[]|] eqn:? end; try exact Hst;
  match goal with H : nth_error st _ = Some _ |- _ => apply (okst_nth st Hst) in H as ?; cbn [okval] in * end.

Lemma left_row_ok i f : (forall r, valid_row r -> valid_row (f r)) -> okst (left_row st i f).
Proof. intros H. unfold left_row. getv. apply Forall_upd; cbn; auto. Qed.
Lemma left_acc_ok i f : (forall r, okacc r -> okacc (f r)) -> okst (left_acc st i f).
Proof. intros H. unfold left_acc. getv. apply Forall_upd; cbn; auto. Qed.
Lemma left_vec_ok i f : (forall r, nth_error st i = Some (VVec r) -> okv r -> okv (f r)) -> okst (left_vec st i f).
Proof. intros H. unfold left_vec. getv. apply Forall_upd; cbn; auto. Qed.
Lemma left_block_ok i f : (forall r, okb r -> okb (f r)) -> okst (left_block st i f).
Proof. intros H. unfold left_block. getv. apply Forall_upd; cbn; auto. Qed.
Lemma left_repeat_ok i f : (forall r, okri r -> okri (f r)) -> okst (left_repeat st i f).
Proof. intros H. unfold left_repeat. getv. apply Forall_upd; cbn; auto. Qed.

Lemma step_left_ok c : careful_call st c -> okst (step_left st c).
Proof.
  intros C. destruct c; cbn [step_left]; try exact Hst.
  - getv. getv. apply left_row_ok. intros o V. rewrite returns_left; auto. rewrite forget_mul_into. apply returns_mul_into; auto.
  - getv. apply left_row_ok. intros o V. rewrite returns_left; auto. rewrite forget_inv_into_buf.
    apply returns_bind; [apply returns_inv_into_buf; auto|]. intros; exact I.
  - destruct p as [i|i index|i|i].
    + apply left_row_ok. intros r V. apply change_row_left_ok; auto.
    + apply left_vec_ok. intros v _ Hv. apply okv_edit_left; auto using change_row_left_ok.
    + apply left_vec_ok. intros v _ Hv. apply okv_edit_left; auto using change_row_left_ok.
    + apply left_vec_ok. intros v _ Hv. destruct (ssv_len v) as [[|n]| | |]; auto. apply okv_edit_left; auto using change_row_left_ok.
  - getv. apply left_acc_ok. intros x Hx. rewrite acc_accumulate_left; auto.
  - getv. apply left_acc_ok. intros x Hx. rewrite acc_pre_accumulate_left; auto.
  - getv. apply left_acc_ok. intros x Hx. rewrite acc_mul_assign_left; auto.
  - apply left_vec_ok. intros x _ Hx. rewrite ssv_extend_left; auto. apply rows_at_valid; auto.
  - getv. getv. apply left_vec_ok. intros x Ex Hx. rewrite extend_range_transposed_left; auto; eapply C; eauto.
  - getv. getv. apply left_vec_ok. intros x Ex Hx. rewrite extend_range_transposed_left; auto; eapply C; eauto.
  - getv. apply left_vec_ok. intros x _ Hx. rewrite from_within_left; auto.
  - getv. apply left_block_ok. intros x Hx. apply okb_extend_range_left; auto.
  - getv. apply left_block_ok. intros x Hx. apply okb_extend_range_left; auto.
  - apply left_block_ok. intros x Hx. apply okb_from_within_left; auto.
  - apply left_repeat_ok. intros x Hx. apply repeat_next_left; auto.
  - getv. getv. destruct (repeat_next_into_left ri0 r) as [H1 H2]; auto.
    destruct (left_behind (repeat_iter_next_into_b (ri0, r)) (ri0, r)) as [x' r']. cbn [fst snd] in *.
    apply Forall_upd; [apply Forall_upd|]; cbn; auto.
Qed.
End Prog.
