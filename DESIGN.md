# Formal model of kneasle/bellframe in Rocq (Coq 8.16.1)

## 1. Approach

The model is a shallow, executable embedding of the Rust functions in Gallina
(`rocq/theories/*.v`), function by function; each definition cites the `/repo` file and lines
it models and says where it simplifies.  No functors, axioms, plugins or libraries beyond Coq's
standard library are used.

| Rust | Model |
|---|---|
| `Bell`, `Stage`, place, index | `nat` (a `Stage` is a non-zero `usize`: `stage_new 0 = Panic`) |
| `Row`, `RowBuf` | `list nat`; validity is *not* built into the type, it is a theorem |
| `char`, `&str` | Unicode scalar values as `N`, strings as `list N`, UTF-8 length explicit where byte offsets matter |
| panic (`unwrap`, index out of range, `assert!`, overflow in checked builds) | `Panic` of the `exec` monad |
| `get_unchecked` / `unreachable_unchecked` contract violated | `Ub` of the `exec` monad |
| possibly non-terminating loop | fuel, running out is the distinct value `NoFuel`; termination is a theorem: there is a bound such that any larger fuel gives `Ret` |
| `Result<A,E>`, `Option<A>` | `result`, `option`: data |
| `&mut self` | state passing: old value in, new value out, also on the error path |
| `HashSet` / `HashMap` iteration | arbitrary order: theorems quantify over every order (permutation) |
| `usize` arithmetic where the property is about overflow | `N` with explicit `2^w` check or wrap, `w` quantified |
| external crates (`edit_distance`, `shortlist`, `itertools`, serde, `str::to_lowercase`) | quantified functions with stated hypotheses, or the documented behaviour written out |

Files: `Base` (monad, lists, strings), one model file per source module, one specification file
(`Spec`) that does not mention the model's helpers, proof files `*Facts`, and `Props*` files with
only the property theorems, each closed by `exact`, with `Print Assumptions` below and a
non-vacuity `Example` beside it.  `Conformance` runs the repository's own doc/unit test
literals on the model (tests, labelled as such; they tie the model to the code).

Where the English property is false of the code, the faithful model is kept, a theorem
`..._refuted` exhibits the failing input, and the strongest true statement is proved beside it
(suffix `_partial`).

## 2. Properties: what is modelled and how it is proved

* C01-C03 `bell.rs`, `stage.rs`: tables modelled literally; proofs by list search lemmas over all `N` / `nat`.
* C04-C08 `row/owned.rs`: the checklist loops as folds; invariant "checklist marks exactly the bells seen".
* C09 constructors; pointwise equality.
* C10-C14 `row/borrowed.rs`, `row/accumulator.rs`: pointwise reasoning on `nth`; NoDup preservation by injectivity; accumulator by induction over operation lists.
* C15 parity loop with fuel; invariant "number of swaps so far + sign"; sign is the inversion parity, defined independently; adjacent/arbitrary swaps flip it.
* C16 effective stage: induction from the back of the row.
* C17 closure: finite order through pigeonhole over lists with bounded entries, then least exponent.
* C18 cartesian product: induction on the stack of partial products.
* C19 least group: BFS with fuel; invariant frontier+seen are in the generated set; termination by finiteness; minimality by induction on words.
* C20 is_group: characterised for every permutation of the de-duplicated set.
* C21 fast_hash in `N` with explicit width: positional number system injectivity.
* C22 pointwise.
* C23-C29 `row/same_stage_vec.rs`: refinement `bells = concat rows`; induction over op lists; iterator as state machine.
* C30-C35 `block.rs`: representation invariant on top of SSV refinement.
* C36-C45 `place_not.rs`: shape predicate on places (independent: which places stay, neighbours paired), loop invariants for gap filling, permute loop; parser of blocks against a declarative tokenisation.
* C46-C51 `mask.rs`: pointwise; existence of a common row by completing a partial injection.
* C52-C58 `music.rs`, `utils.rs`: inductive language of regex elements; normalisation preserves language; greedy matcher complete because bells in a row are distinct.
* C59-C60 `method/mod.rs`: orbit of lead head; label updates as a finite map.
* C61-C62 `method/class.rs`: cycles = orbits; classification as decision table over paths.
* C63 titles; C64-C65 library with abstract lower-casing (idempotent) and abstract hash order.
* C66 serde of primitives: number in, number out.
* C67 calls; C68 a language of programs over the safe API (about 110 calls over registers holding rows, buffers, blocks, iterators, masks, methods; with `Method::new`, clones, calls of `call.rs` and look-ups in libraries), one `safe_*` lemma per function, induction over programs: `Ub` unreachable and every row valid unless one of three unguarded calls is used (refuted in general).
* C69-C70 texts of masks and regexes: declarative reading relation, round trips on normal forms.
* C71 constructors of methods: composition of C43, C45, C62, C63; the lead of legal changes never jumps so classification cannot panic.
* C72 text of classes: case analysis over the finite type.
* C73 texts are unambiguous: every bell name is either one character or `<n>`, and decimal numbers are uniquely read, so names are prefix-free; induction on the rows.
* C74 messages: all `Display` implementations of errors are modelled (`Format`); the subtraction in the message of ambiguous places panics on underflow in the model, and C37/C44 show that the parsers return places in order. `C74_messages_of_rows` and `C74_messages_of_place_notation` go from the arguments of a failed call to the text of its message.
* C75 debug texts: `DebugTuple` of the standard library is written out; rows have no comma in their text.
* C76 comparisons: the derived implementations are written out (`Compare`); the order is compared with `lex_lt` of `SpecFormat`.
* C77 caught panics: `Unwind` repeats the functions which write through `&mut` in a monad whose panic keeps the state reached; erasing that state gives back the other model (proved); three invariants over programs (rows valid, place notations legal, blocks with one annotation per row).
* C78 machine integers: `Machine` repeats the functions which do arithmetic on numbers given by the caller, on words of `w` bits with or without overflow checks; a refinement relation (same result, or a panic in checked builds) carried through every call of a program.
* C79 numbers near the ends of the word: the value of each of these functions for every number, from `N` arithmetic modulo `2^w`; for `get`, a stage which is not a power of two has a multiple which wraps to the inside of the first row.
* C80 rows and changes: the relation `rung` (each row follows from the one before by its change) determines the rows from the changes and, since a legal change is determined by what it does, the changes from the rows; multiplication is a map on rows, reversal holds since changes are involutions.
* C81 texts written out: `SpecLaws.written_out` says inductively which texts spell a list of changes; each is shown to be described by the grammar of C43, which parsing implements.
* C82 laws of blocks: both sides of each law represent the same annotated rows (`brep`), by the algebra of `moved`; a representation determines the block.
* C83 groups: closures are the positive powers, least groups the words, `is_group` the subgroup test; the order from the least positive exponent; divisibility of sizes by removing cosets one by one.
* C84 parity: the number of inversions modulo two is a homomorphism; a legal change is walked from its first place to its last.
* C85 from text to course: C71 gives the lead, C59 the course as multiples of the lead; each step inside a lead is a change multiplied from the left, the step between leads is the last change of the lead.
* C86 JSON text: `Json` writes out what `serde_json` does on this data (compact writing; reading with spaces, escapes, surrogate pairs, numbers, ignored fields).  Induction on JSON values for the round trip, on the steps of the reader for totality; then C65.
* C87 histories of the cache: `Cache` models the file, the request and each outcome of a write; invariant: the file is missing, cannot be loaded, or loads as the library of a text served before.  Needs that a JSON text which starts another one has the same value, and that JSON has no NUL byte (a machine that stops may leave zeros).
* C88 bad cache files: a literal file which makes each call panic, by induction on the history; otherwise the two runs are compared.
* C89 overlapping calls: small steps of any number of calls on a shared file; invariant: each byte of the file and of every buffer is zero or the byte of the served text at the same place.  The refutation is a trace of three calls.
* C90 grammar of JSON: `SpecJson` states the grammar of RFC 8259 and the fields of a library as inductive relations.  Soundness of the reader by induction on its steps, completeness by mutual induction on derivations; C86 and C88 are stated with these relations.
* C91 iterators and adapters: `Adapters` models what `Iter` gives to the standard traits, with the default `size_hint`, and writes out the adapters of the standard library for any iterator.  An iterator is like a list when it answers every sequence of questions as the list does; this is shown for the rows and kept by each adapter, by bisimulation.
* C92 code of the caller: closures, `default` and `clone` are computations on an arbitrary world which return or panic (`Closures`, over the borrows of `Unwind`).  `SpecClosures` says which calls are made and where they are interrupted; induction over those calls.
* C93 calls end: `SpecEnds` puts one number of rounds into all loops of a call or program; a call ends when some number is enough and larger ones give the same outcome.  One `ends_*` lemma per loop; more rounds never change an outcome; invariant over programs: the methods start at rounds and have one annotation per row.  The loops which run for ever are shown to do so by induction on the number of rounds.
* C94 unsafe functions: `Unsafe` adds calls of the unsafe functions to `Program`; `SpecUnsafe` writes their "Safety" sections as `contract` ("a valid row" is taken to mean a row with at least one bell, although the words of owned.rs 276-278 admit none).  Invariant: all values are valid (C68); under the contract each call has the outcome of its checked partner.
* C95 XML: `CcXml` models the tree of `minidom` (elements with name, namespace, attributes and nodes) and the reader over it, with two repairs (see section 4); `SpecXml` says what a document states (`says`), as in the comment of the file.  The reader succeeds exactly on documents which say something, by induction on the sets and methods; insertions into hash maps as in C65; then the JSON round trip of C86 with the keys changed to lower case.
* C96 unchecked reads in every build: `Release` repeats the functions of `Machine` which meet a `debug_assert!` or take lengths of buffers, for both kinds of build, so that programs may go on with buffers which are out of step.  Invariant: every bell in every row, buffer, block and iterator is below the stage of that value (not that rows are valid, which is false here); it is kept by every call but `Mask::as_row` and `inv_into_buf`.  The slices which `get` returns after a wrap-around have the right length because `(i + 1) s` and `i s + s` wrap to the same word.  `C96_programs_which_fit_partial` ties the release model to the unbounded one by equality, so that a model which panics too often is not accepted.
* C97 laws of masks: no new model; a mask is determined by what it asks for (`specifies`) and its length, `combine` is the union of what is asked for when the masks agree, and agreement of a union with a third mask is agreement of both parts; products permute the places or rename the bells injectively.
* C98 canonical regexes: no new model; the shortest lists a regex describes determine its elements other than globs, and a list with one bell not written in the regex inserted before some element is described exactly when a glob stands there (for the places where a normal form may have one).
* C99 cycles of rows: no new model; walks along a row are specified in `SpecCycle.v`, orders are related to them bell by bell, and the parity by taking one bell at a time out of its cycle (induction on the number of bells not at home).
* C100 touches: no new model; `put_together` (`SpecTouch.v`) is repeated `extend`.  One lemma says that a block rung by `p ++ q` splits into blocks rung by `p` and `q`, another that extending concatenates changes; the property follows from these and from the uniqueness of the rows rung by given changes.
* C101 circles of changes: no new model; `same_circle` (`SpecSym.v`) is rotation or reflection of a list.  The plain course is written as an endless product of transpositions; rotating the changes renames the bells and shifts this course, reversing them reads it backwards from its end.  The path of each hunt bell is then read from another row on, or backwards, and each part of the specification of C62 is shown to be the same for such paths.
* C102 predicates on classes: the predicates of `Class.v` against the specification of C62 (`SpecClass.v`).  The direction of `is_symmetric_hunter` which holds needs a fact about closed paths: one which moves by at most one place at a time and is in each of its places twice is symmetric (`PathFacts.v`).  The other direction is refuted.
* C103 counting runs: no new model; `matching` (`SpecRuns.v`) is the sublist of patterns a row matches.  The patterns are in bijection with segments of consecutive bells, and the matched segments with the places where they start.
* C104 how many rows masks and run patterns match: `there_are n P` (a list of n different rows, exactly those with P);
  masks by filling the open places with the permutations of the free bells, patterns by the count of C56, and the totals
  over the extent by counting pairs of a row and a pattern in two ways (Extent).
* C105 repeated rows are found within one lead: no new model; cancellation in the group of rows, with C59 for the rows of
  the plain course and C17 for the powers of the lead head (Truth).
* C106 how often the loops go round: the loops of the model are cut off after a number of rounds; `takes f n` (SpecCost.v) says that `f k` is cut off exactly when `k < n`. Induction on the result for closures and groups, on cycles for parity (each swap takes one bell out of its cycle), on the number of leads for courses; Lagrange's theorem (C83) bounds the size of groups. For regexes `Steps.v` models `run_match` a second time, counting the calls of `next` on its two iterators; `C106_regex_matching` shows that it gives the same results and bounds the two numbers, by induction on the elements. In the same way it counts the products and inverses of `is_group` (`C106_group_test`).
* C107 displayed texts are plain and line up: no new model; `one_line` and `no_spaces` (`SpecText.v`) bound the codes of the characters; by cases on the texts of `Format.v`, and rows of one stage are permutations of one another (Text).
* C108 reuse of allocations: `Alloc.v` models the functions concerned a second time, with the room of each vector and the number of requests made to the allocator; the growth policy is an argument. `C108_same_results` shows that forgetting rooms and requests gives the first models back. The rest is proved by induction on histories with the invariant that what is held fits into the room. Trusted: `Vec` asks only when its elements would not fit and gets at least what it needs, keeps its room when elements are removed, and collecting an iterator of known length asks once. Hash sets and annotations are not counted.
* C109 hash order: the orders are quantified functions of the models of `classify`, `is_group`, `generate_suggestions` and `lib_to_serde`. Programs: `run`, `m_run`, `r_run`, `run_caught` and `urun` are equal under any two orders (the loop over the crossings gives a conjunction over a set, or panics if any element does). Group tests and searches by C20 and C64; suggestions by counting the items within each distance; compact forms by comparing the association lists of groups key by key, up to permutation. One theorem shows that the exceptions are real.
* C110 characters without a meaning do not matter: SpecAlike.v defines the relation alike on texts of place notation as the equivalence generated by single insertions and exchanges, and what it means that two results are the same but for a position. AlikeFacts.v rewrites the parser of place notation without its positions as a function on the meanings of the characters and proves each generator against it. The model is the one of C43, C46, C52 and C25; nothing new is modelled.
* C111 cover bells do not change what rows do: SpecCover.v says what it means that a row is another one with cover bells. CoverFacts.v proves that extending is an injective homomorphism and carries it through the loops of closure, least_group_containing, multi_cartesian_product and is_group step by step; parity goes through the swaps of C15. Nothing new is modelled.
* C112 panics of calls: SpecPanics.must_panic is a table with one line for each call of Program.v, in terms of the rows, stages and lengths which the caller can see; every other call is listed as False. Four invariants of the store are kept by every step (rows valid, place notation legal, blocks whole, blocks of place notation non-empty and of one stage); for each of the 112 calls the model's result is Panic exactly when the table says so. Programs by induction over the calls. After extend_range the table is wrong (shown).
* C113 upside down: SpecUpside states when changes and rows are each other upside down. The conjugate of a row by the reversing permutation is multiplicative, so all rows of the course are conjugated and paths are mirrored; path classes, hunt bells, orders and sharp turns are carried over. The code counts the dodging pairs from the lowest place of the hunt bell, so cross sections agree only if the hunt bell covers an even number of places; this is proved for every treble dodging path by summing signs along the path, which makes exactly two places.
* C114 shapes of courses: the rows of the plain course are the products of the transpositions of the changes, read for ever and stopped at the first lead head which is rounds (from C59). Rotation conjugates by a row of the course, reversal reads the endless course backwards because every change is its own inverse, upside down conjugates by the reversing permutation; all three keep the order of the lead head, and act on the rows injectively.
* C115 patterns read backwards and with other bells: from C53 and C54, by showing the laws for the lists which a pattern describes (induction on the description) and that the normalised patterns have the same numbers of bells, wildcards and stars; for runs, that the lists of patterns are permutations of each other under the two operations. `renamed` is in SpecRename.v.
* C116 Operators, conversions and second names do what the named functions do: `Aliases` models them; the laws follow from those of the functions they call (C04, C06, C11, C24, C28, C34, C45) and are stated without them.
* C117 Equality of changes, blocks of changes, masks and regexes: `Derived` models what the compiler derives; that equality is structural is immediate, and C38 to C40, C80, C48, C97 and C98 say what the structure determines. Hashing: each feed is prefix free, by induction.
* C118 renaming: `SpecConj.renamed` says bell by bell what renaming means. `ConjFacts` shows that the renamed row is the conjugate, that conjugation respects products and is injective, and follows each loop of the model (closures, products of sets, least groups, the group test) on rows and renamed rows side by side. Parity goes through the sign of a product (`ParityFacts`).
* C119 cover bells under methods: `SpecCoverPn.covered_change` lists the places made. `CoverFacts2` shows that ringing it keeps the bells behind where they are, so that the transpositions, and with C111 their products, are the covered ones; the plain courses are compared through the products of changes as in C114.
* C120 counting changes: `SpecCount.number_of_changes` is the recursion, and `there_are` (SpecMask) says that a duplicate-free list of that length holds exactly the lists of places, or the rows, in question. The list is built by the two ways a legal change can go on from a place. Two rows of a stage are permutations of each other; induction on the permutation gives adjacent swaps, and each is a legal change.
* C121 counting even rows: multiplying by an odd row of the group maps even rows to odd ones and back without collisions, so there are as many of each; the stage is the same argument with all permutations as the group, and a touch of even changes stays in one half (C84).
* C122 joining patterns: `described` of a concatenation splits, C53 ties it to `matches`, and C98 turns equality of regexes into equality of what they describe.
* C123 paths: C26 says where a path puts its bell; changes move bells by induction on `rings`; the place bells come from the powers of the lead head (C59).
* C124 mirror images: ringing is a function of the changes and commutes with renaming bells (`rung_fun`, `rung_map`), and the changes of the course read backwards from the end of the first section are the changes read forwards.
* C125 room: `Room` repeats these functions on words of `w` bits, with the refusal of `Vec::with_capacity` beyond `isize::MAX` bytes; case analysis on whether the product fits.
* `StillFacts.v`: rows which leave all bells from a place on at home are closed under products, inverses and quotients, hence a subgroup; `rings` keeps bells at places made. `PropsStill.v`: `C126_products`, `C126_inverses_and_powers`, `C126_groups`, `C126_changes`.
* C127: induction on the text, comparing `mask_char` and `regex_char`; a pattern without globs is a normal form (C52), so the regex of a mask is the mask place by place. `PropsMaskText.v`: `C127_same_text`, `C127_same_rows`, `C127_displayed`, `C127_texts_of_rows`.
* C128: `BetweenFacts.v`: induction on the rows, taking off one place made or one exchanged pair; the case of rows which are multiplied from the renaming of a change. `PropsBetween.v`: `C128_exists_exactly_when_no_bell_jumps`, `C128_does_not_depend_on_the_bells`, `C128_rows_without_jumps_are_rung`.
* C129: a group contains rounds; conversely rows which keep given bells at home are closed under products and inverses; quotients of two rows which the mask matches fix its places (or bells). `PropsMaskGroup.v`: `C129_when_they_are_a_group`, `C129_otherwise_a_coset`.
* C130: the names of the first nine bells are consecutive characters; the tenth bell is called 0, which comes before 1. `PropsSort.v`: `C130_as_texts_up_to_nine_bells`, `C130_not_from_ten_bells_on`.
* C131: `SpecHunt.v` gives the two changes and the place of each bell in each row (a point going round a circle of 2n points, folded). By induction on the row number each change undoes one step along the path; then the general theorems on plain courses and classes apply. `PropsHunt.v`: `C131_changes`, `C131_plain_course`, `C131_principle`.
* C132: the rows of a lead are those of plain hunting (C131); the lead head moves the working bells round one circle of n-1 bells, which gives the length; a row could come twice only if a power of it were the exchange at the lead end, which is impossible from four bells on. The bell which dodges in 3-4 at the lead end makes it a Bob method. `PropsBob.v`: `C132_changes`, `C132_plain_course`, `C132_class`.
* C133: the number of leads is the least common multiple of the cycles of the lead head (C99); not differential means that the cycles of the working bells have one length, so this length is the number of leads, and the working bells fall into cycles of it. `PropsDiff.v`: `C133_working_bells`, `C133_principles_on_a_prime_number_of_bells`.
* C134: the row i of lead j is the j-th power of the lead head times row i of the first lead (C59), so a bell rings in lead j the path of the bell from which j steps lead to it; comparing the leads of two bells gives both directions. `PropsWork.v`: `C134_the_same_work`, `C134_hunt_bells`.
* C135: a path is of the plain class when it is in each of its places exactly twice and does not stand still throughout (C62); a closed path with steps of at most one place which is in each place twice goes steadily from its lowest to its highest place and back, so it is the path of plain hunting, except for the path which dodges in two places. The converse computes the counts. `PropsPlain.v`: `C135_plain_paths`, `C135_plain_methods`.
* C136: each move changes the parity of the place, and a hunt bell comes back to its place, so the moves are even in number; a dominant hunt bell which is in all places equally often gives the multiple, and one which makes a place is somewhere more than once; that a treble dodging bell covers an even number of places is known from C113. `PropsLeadLen.v`: `C136_hunt_bells_move_an_even_number_of_times`, `C136_lead_lengths`.
* C137: C105 with the remark that the powers of the lead head fix the hunt bells, so that rows which they take to each other have the hunt bells in the same places; a plain hunting bell is in each place in exactly two rows, and the inverse of a power is a power. `PropsRepeatPlace.v`: `C137_hunt_bells_in_the_same_places`, `C137_plain_methods`, `C137_touches`.
* C138: the rows of a stage with a given bell in a given place are counted as those which a mask fits (C104); in the course a hunt bell repeats its path of the lead (C134). `PropsCourseExtent.v`: `C138_no_more_rows_than_orders`, `C138_hunt_bells_in_an_extent`, `C138_class_of_an_extent`.
* C139: `SpecAffect.v` says when a change takes a bell from one place to another (by its transposition); induction over the changes rung from rounds (C45, C26), the lead head of a called lead (C100), and the places made by the texts 12, 14 and 1234 on every stage (C36). `PropsAffect.v`: `C139_same_paths`, `C139_affected_bells`, `C139_bobs_and_singles`, `C139_bells_which_no_call_affects`.
* C140: `SpecTally.v` counts the rows of a list which a mask or regex matches. Multiplying a row and multiplying the mask by the inverse are the same for matching (C46, C118); the rest is induction over the leads, `extend` as in C31 and the number of rows matching a mask from C104. `PropsTally.v`: `C140_transposed_rows`, `C140_joined_blocks`, `C140_touches`, `C140_plain_courses`, `C140_music_of_a_true_touch`.
* C141: the rows of a lead are those of plain hunting (C131), which read from their end are the same rows multiplied by the last of them; so a repeated row gives a repeated row with the treble in front. The lead head of a lead with a bob is, but for its first two bells, that of Plain Bob on two bells fewer, so its powers are known from C132. `PropsCalledBob.v`: `C141_true_touches`, `C141_bobs`, `C141_singles`.
* C142: the first and the last row of every lead have the treble in front and are even; half of the (n-1)! rows with the treble in front are even (C104 and the argument of C121), and there are two of them for every 2n rows. `PropsEvenBob.v`: `C142_even_calls`, `C142_extents_need_singles`.
* C143: after the first change the rows are those of plain hunting seen through one fixed transposition, which is the lead head; it turns the working bells 3, 5, 7, ..., 6, 4 round by one. The places of the treble and the 2 tell the rows of a lead apart. `SpecGrandsire.v`, `PropsGrandsire.v`: `C143_changes`, `C143_plain_course`, `C143_class`.
* C144: a sequence of k swaps gives a colouring of the bells which the row respects and which has at least n-k colours, and such a colouring has at most one colour for each cycle. `Steps2.v`, `PropsSwaps.v`: `C144_fewest_swaps`, `C144_palindromes_are_quadratic`.
* C145: each bell gets a coordinate, how many leads it is behind the treble; the lead head adds one to it modulo n. The coordinates of the three bells in front tell the twelve rows of a lead apart whatever is added. `SpecStedman.v`, `PropsStedman.v`: `C145_changes`, `C145_plain_course`, `C145_class`.
* C146: the lead heads in the order of the touch are numbered; the touch is one cycle on the numbers. Taking plain leads instead gives cycles which are all as long as the plain course, and the two differ by a permutation of odd order, which is even. So the signs agree, which says that the number of plain courses is odd. For Grandsire the lead heads of an extent would be all even rows with the treble in front, so the number of courses would be (n-1)(n-3)!/2, which is even. `RoundFacts.v` (`circuit`), `SpecRound.v`, `PropsRound.v`: `C146_round_touches`, `C146_no_extent_of_grandsire_with_bobs_only`.
* C147: the lead end row, the plain lead end and the bob each swap (n-2)/2 pairs, so that both lead heads are even. Hence the lead heads of an extent without singles would be all the even rows with the treble in front, and by the circuit lemma of C146 there would be an odd number of plain courses, (n-2)!/2; but that is even from six bells on. The lead heads of a bob and of a plain lead differ by a cycle of three bells. C142 has the stages 6, 10, 14 and so on, also for touches which do not come round. `RoundFacts3.v`, `PropsBobRound.v`: `C147_extents_need_singles`.
* C148: the products are the right cosets of the group through the rows, one after another (`CosetFacts.v`: `parts_true`, `parts_again`, `parts_of_rows`); two cosets are the same or have no row in common. `PropsCoset.v`: `C148_products_with_a_group`, `C148_extents_in_parts`, `C148_groups_divide_groups`.
* C149: the rows of the plain course (C59) are the lead multiplied by each power of the lead head (`PartFacts.v`: `blocks_of_list`, `heads_first`); the group is divided into left cosets of these powers (`parts_right`, the inverses of the parts of C148). `PropsPart.v`: `C149_plain_courses_are_products`, `C149_groups_of_lead_heads_are_whole_courses`.
* C150: neighbouring pairs are put in order from the first place on and from the second place on in turn; after as many turns as there are bells the row is in order, as for each place the bells which belong there or above are counted from behind (`SortNetFacts.v`: `sweep_far`, `sweep_end`; `FewFacts.v`: `way_between`). For backrounds the treble would have to move up at every change, and so would the next bell, which it has just passed (`to_backrounds`). `PropsFew.v`: `C150_as_many_changes_as_bells`, `C150_backrounds_needs_as_many`, `C150_at_least_as_many_as_places_to_go`.
* C151: by induction on the stage, the last bell hunts down and up in turn through each row of the extent on one bell less (`PlainChangesFacts.v`: `weave_way`, `extent_exists`, `extent_from`); the changes are those between the rows (C128). `PropsPlainChanges.v`: `C151_extents_on_every_stage`.
* C152: two single exchanges one after the other can be replaced by double changes (`DoubleFacts.v`: `reach_turn`, `reach_two`), so every second row of the extent of C151 is reached (`reach_even`); double changes keep the sign (`adj2_sgn`). `PropsDouble.v`: `C152_double_changes`, `C152_four_bells_are_too_few`.
* C153: the places of a bell in the course are arranged in a rectangle, leads by rows, and counted by columns (`ShareFacts.v`: `tot_square`); in each column the bell in place p of the lead comes round to b once in k leads or never (`turns`). `SpecShare.v` defines the bells on a cycle. `PropsShare.v`: `C153_places_in_the_course`, `C153_all_bells_working_together`, `C153_one_hunt_bell`.
* C154: the lead which comes by a plain lead to the head to which a called lead comes must be called too, as heads are not repeated (`QsetFacts.v`: `called_together`); sets closed under a row are divided by its order (`orbits`). `PropsQset.v`: `C154_calls_come_in_sets`.
* C155: by induction on the leads each head is a product of rows which fix the bells specified (`touch_heads` in `RoundFacts2.v`); the heads are different rows among those counted in C104. `PropsBound.v`: `C155_leads_which_keep_to_a_mask`.
* C156: such a block is k times the list of all rows in another order (`often` in `MultiFacts.v`); the rows with a bell in a place, or matching a mask, are counted as in C104. `PropsMulti.v`: `C156_bells_in_places`, `C156_rows_which_match_a_mask`.
* C157: the call from x leads where the plain change from x * q leads (`call_leads`), so each block with the call ends at the start of the next; after all of them the last row has been multiplied by a power of q equal to its order (`chain_ok` in `QjoinFacts.v`). `PropsQjoin.v`: `C157_blocks_joined_by_a_set_of_calls`.
* C158: the rows of a block in two parts are those of its parts (`two_parts` in `InsertFacts.v`), and parts are put together with `rung_app`. `PropsInsert.v`: `C158_round_blocks_can_be_started_anywhere`, `C158_round_blocks_can_be_inserted`.
* C159: the converse of C157. The rows of the block are cut into those of the parts (`unchain` in `QsplitFacts.v`); where a call leads from x is where the plain change leads from x * q, the last row of the next part. `PropsQsplit.v`: `C159_without_a_set_of_calls`.

## 3. Trusted base

* Coq 8.16.1's kernel, including its virtual machine (`vm_compute` on literals, in examples and a
  few finite case analyses).  `coqchk -o` accepts the compiled files.
* The reading of the Rust source embodied in the model files, and the table in section 1.
* The specification files (`Spec*.v`) and the statements in `Props*.v`, which say what is meant by
  each property.
* `tools/genprops.py` only copies text: it splits `tools/props/X.src` into the proofs (`XThms.v`)
  and the statements (`PropsX.v`, each closed with `exact`).  Both are committed, and what the
  kernel checks is the generated files.

## 4. Assumptions and coverage

**Assumptions.**  `Print Assumptions` stands below every property theorem and prints "Closed under
the global context" for each of them.  No axiom of ours, none of the standard library's logical
axioms (classical logic, functional extensionality, proof irrelevance...).  A checker of whole
libraries (`coqchk -o`) also lists `Coq.ssr.ssrunder.Under_rel.*` (seven constants of a module of
the standard distribution that is sealed with a module type and loaded by `Lia`/`ssreflect`
plugins); no theorem depends on them.

**Modelled, function by function:** `bell.rs`, `stage.rs`, `parity.rs`, `utils.rs`,
`row/borrowed.rs`, `row/owned.rs`, `row/errors.rs`, `row/accumulator.rs`, `row/same_stage_vec.rs`,
`block.rs`, `place_not.rs`, `mask.rs`, `music.rs`, `call.rs`, `method/mod.rs`, `method/class.rs`,
`method_lib/mod.rs` (with `Json`, `Utf8` and `Cache`), `method_lib/lib_serde.rs`,
`method_lib/parse_cc_lib.rs` (with two repairs, `CcXml`), with their `Display`/`Debug` texts (`Format`), the
comparisons the compiler derives (`Compare`), and programs that call the safe API in any order
(`Program`), also catching panics (`Unwind`), on machine words (`Machine`, `Room`), in builds without debug
assertions (`Release`) or calling the unsafe functions (`Unsafe`); the functions which promise to
reuse an allocation also with the room of their vectors (`Alloc`), and
`Regex::matches` and `Row::is_group` with the numbers of their steps (`Steps`), the test for a palindrome with the number of its comparisons (`Steps2`); operators,
conversions and aliases (`Aliases`).

**Not modelled:**

* Functions which are a field access in the model: `into_row_vec`/`row_vec`/`annots`,
  `as_usize`/`num_bells`, `AnnotRow`, `RowAnnot`, the accessors of `Method`, `Call`, `FullClass`,
  `PnBlock`, `Regex`, `RowAccumulator`.  The operators and second names of
  modelled functions are in `Aliases` (C116).
* Allocation, outside of `Alloc` (C108): capacities, `Rc`/`Arc` copies of a row (`to_rc`, `to_arc`: pointer casts between
  `[Bell]` and the `repr(transparent)` `Row`), and the like.  The same cast in
  `Row::from_slice_unchecked` is taken to be the identity.
* The XML text itself (crate `minidom`): the parser is any function from texts to trees.
  `method_lib/parse_cc_lib.rs` is behind a feature (`cc_lib_gen`) and does not compile at this
  commit (`usize` has no `Into<Stage>`, and the field `title` of `CompactMethod` is missing);
  `CcXml` models it with `Stage::new` and a copy of the title in these places.
* The HTTP request itself: its answer is an arbitrary text or a failure.  Of the file system, only
  the cache file is modelled, and only `cc_lib` writes it; after a crash it holds the bytes written
  so far, perhaps followed by zeros.
* The messages and positions in errors of `serde_json`.
* Widths: in most of the model `usize` (bells, stages, lengths, counts) is unbounded, and
  subtractions that can go below zero panic, as in builds with overflow checks.  Where a property is
  about overflow (`fast_hash`, `num_matching_rows`) `2^w` is explicit.  `Machine` has every function
  which does arithmetic on numbers the caller chooses (row numbers, range ends, exponents, bells) in
  both kinds of build, and relates it to the unbounded one (C78, C79); `Room` has the room asked for
  in advance (C125).  Sums of lengths of values in
  memory are taken to fit into a word.
* Iterators given by the caller are the lists of what they yield, except that the one given to
  `SameStageVec::extend` may panic (C77).  Closures, `default` and `clone` are pure functions outside
  of C92.

**External functions** are either written out as documented (`itertools::join`,
`DebugTuple`, `str::lines`, `char_indices`, `to_ascii_lowercase`, `slice::sort_unstable`,
`checked_factorial`, `serde_json` on the compact form, UTF-8, the iterator adapters of C91) or quantified over: `str::to_lowercase`, `edit_distance` (any function),
`Shortlist` (keeps the greatest `n`; a refusal of `n = 0` by that crate would be a panic the model does not have), iteration order of `HashMap`/`HashSet` (any order), the answers
of the network and the outcomes of file operations.
