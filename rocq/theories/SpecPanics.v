(** When a call panics, for the theorem about panics of whole programs.

    The values are described by what the caller can see of them: the rows of a buffer and of a block
    ([holds], [block_holds]), the number of bells in a row or a mask. *)
From Verif Require Import Base Spec SpecVec SpecBlock SpecPn SpecClass Bell Stage Row Utils SameStageVec Block PlaceNot Mask Class Method Program.
Local Open Scope list_scope.

(** The row which a mutable borrow points to. *)
Definition place_has (st : list value) (p : place) (r : list nat) : Prop :=
  match p with
  | InRow i => nth_error st i = Some (VRow r)
  | InVec i k => exists v s rs, nth_error st i = Some (VVec v) /\ holds v s rs /\ nth_error rs k = Some r
  | InVecFirst i => exists v s rs, nth_error st i = Some (VVec v) /\ holds v s rs /\ nth_error rs 0 = Some r
  | InVecLast i => exists v s rs, nth_error st i = Some (VVec v) /\ holds v s rs /\ last_opt rs = Some r
  end.

(** The range from [a] up to but excluding [b] lies within [n] elements. *)
Definition in_range (a b n : nat) : Prop := a <= b /\ b <= n.

(** The stages which have names are those up to 22 bells. *)
Definition nameless (s : nat) : Prop := 22 < s.

Section MustPanic.
Context (st : list value).
Notation "i 'is' v" := (nth_error st i = Some v) (at level 70).

Definition must_panic (c : call) : Prop :=
  match c with
  (* [Stage::new] of zero *)
  | Rounds n | Backrounds n | Queens n | FromVecWithStage _ n | ParseWithStage _ n | AccRounds n | VecNew n
  | BlockEmpty n | PnParse _ n | PnCross n | PnBlockParse _ n | MaskEmpty n => n = 0
  (* rows of different stages; fewer bells than there are; no such place *)
  | Mul i j => exists a b, i is VRow a /\ j is VRow b /\ length a <> length b
  | AccMulAssign i j => exists a b, i is VAcc a /\ j is VRow b /\ length (acc_total a) <> length b
  | ExtendToStage i n => exists r, i is VRow r /\ n < length r
  | ChangeRow p (Swap a b) => exists r, place_has st p r /\ (length r <= a \/ length r <= b)
  (* the empty string *)
  | VecParse t | BlockParse t => t = []
  (* no such row; not a range of the rows *)
  | VecIndex i k => exists v s rs, i is VVec v /\ holds v s rs /\ length rs <= k
  | VecExtendRangeTransposed i j k lo hi =>
      exists v t w s rs, i is VVec v /\ j is VRow t /\ k is VVec w /\ holds w s rs /\ length t = s /\
        ~ in_range (range_start lo) (range_end hi (length rs)) (length rs)
  (* a range which does not start at a row (one which starts at a row may end anywhere) *)
  | VecExtendFromWithin i lo hi j =>
      exists v t s rs, i is VVec v /\ j is VRow t /\ holds v s rs /\ length t = s /\
        length rs <= range_start lo < range_end hi (length rs)
  | BlockWithDefault i => exists v s, i is VVec v /\ holds v s []
  | BlockExtendRange i j lo hi =>
      exists b c s s' ars ars' l l', i is VBlock b /\ j is VBlock c /\ block_holds b s ars l /\ block_holds c s' ars' l' /\
        (length ars' < range_start lo \/
         s = s' /\ ~ in_range (range_start lo) (range_end hi (length ars') + 1) (length ars' + 1))
  | BlockExtendFromWithin i lo hi =>
      exists b s ars l, i is VBlock b /\ block_holds b s ars l /\
        ~ in_range (range_start lo) (range_end hi (length ars)) (length ars)
  (* a new bell outside the mask; a mask without places; masks and rows of different lengths *)
  | MaskFixBells n bells => n = 0 \/ exists b, In b bells /\ n <= b
  | MaskFix i b => exists m, i is VMask m /\ ~ In (Some b) m /\ length m <= b
  | MaskSetBell i b p => exists m, i is VMask m /\ ~ In (Some b) m /\ length m <= p
  | MaskCombine i j => exists m n, i is VMask m /\ j is VMask n /\ (m = [] \/ n = [])
  | MaskMulRow i j => exists m r, i is VMask m /\ j is VRow r /\ length m <> length r
  | RowMulMask j i =>
      exists m r, i is VMask m /\ j is VRow r /\
        (length m <> length r \/ exists b, In (Some b) m /\ length r <= b)
  (* leads which are empty, do not start at rounds, or jump where it matters for the class; titles of
     methods on too many bells *)
  | MethodWithName _ i =>
      exists b s ars lo, i is VBlock b /\ block_holds b s ars lo /\
        (ars = [] \/ ~ is_identity (hd [] (map fst ars)) \/ ~ all_cross_sections (map fst ars) lo no_jump \/ nameless s)
  | MethodFromString _ n t => n = 0 \/ nameless n /\ exists pns, pns <> [] /\ block_changes n t pns
  | MethodWithLeadEnd _ i => exists pns, i is VPnBlock pns /\ exists pn, In pn pns /\ nameless (pn_stage pn)
  (* no such row in the lead *)
  | MethodRowInLead i k =>
      exists m s ars lo, i is VMethod m /\ block_holds (first_lead m) s ars lo /\ length ars < k
  | MethodRowInCourse i _ => exists m s lo, i is VMethod m /\ block_holds (first_lead m) s [] lo
  | MethodSetLabel i k _ =>
      exists m s ars lo, i is VMethod m /\ block_holds (first_lead m) s ars lo /\ length ars <= k
  | _ => False
  end.
End MustPanic.

(** [AnnotBlock::extend_range] can make blocks with more annotations than rows (C31). *)
Definition extends_by_range (c : call) : bool :=
  match c with BlockExtendRange _ _ _ _ => true | _ => false end.
