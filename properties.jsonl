{"id": "C01", "title": "Bell names are a bijection", "statement": "Bell::from_name(c) returns Some(b) exactly when b.to_char() returns Some(c); exactly the bells of index 0..=32 have a one-character name, all names are distinct, and every other char (lower case, X, I, O, non-ASCII) is rejected.", "quantifier": "every Unicode char and every bell index", "why_tests_cant": "the set of chars and of bell indices is far too large to enumerate; a doc test samples a dozen", "anchors": ["src/bell.rs: Bell::from_name, Bell::to_char, BELL_NAMES"]}
{"id": "C02", "title": "Bell numbers and display names", "statement": "Bell::from_number(n) fails only for 0 and otherwise is the inverse of number(); tenor(stage) is the largest bell of the stage; name() is the one-character name when there is one and '<number>' otherwise, so two different bells never display alike.", "quantifier": "every bell index, number and non-zero stage", "why_tests_cant": "ranges over all integers", "anchors": ["src/bell.rs: Bell::from_number, Bell::number, Bell::tenor, Bell::name", "src/stage.rs: Stage::bells, Stage::tenor"]}
{"id": "C03", "title": "Stages are never zero and their names round-trip", "statement": "Stage::try_from/new refuse exactly 0; a stage has a name exactly when it has 1 to 22 bells; looking up the lower-cased name gives the stage back, and every string accepted by from_lower_case_name is the lower-cased name of the stage returned.", "quantifier": "every usize and every string", "why_tests_cant": "arbitrary strings and integers", "anchors": ["src/stage.rs: Stage::new, Stage::try_from, Stage::name, Stage::from_lower_case_name"]}
{"id": "C04", "title": "RowBuf::from_vec accepts exactly the permutations", "statement": "RowBuf::from_vec(bells) succeeds exactly when bells is non-empty and contains every bell below its length exactly once, and then the row holds the same bells in the same order.", "quantifier": "every list of bells of any length", "why_tests_cant": "the accepted set is infinite; a checklist bug may only show for one particular arrangement", "anchors": ["src/row/owned.rs: RowBuf::from_vec, RowBuf::from_bell_iter"]}
{"id": "C05", "title": "Row parse errors tell the truth", "statement": "When from_vec fails: NoBells means the input is empty; BellOutOfStage(b,s) means b occurs, s is the number of bells given and b is not below it; DuplicateBell(b) means b occurs at least twice; and the bell reported is the first offending one (the prefix before it is fine). MissingBell is never produced.", "quantifier": "every invalid list of bells", "why_tests_cant": "all invalid inputs, which are infinitely many", "anchors": ["src/row/owned.rs: RowBuf::from_vec", "src/row/errors.rs: InvalidRowError"]}
{"id": "C06", "title": "Parsing a displayed row returns it", "statement": "RowBuf::parse ignores every char that is not a bell name, never panics, and parsing the Display output of any row on at most 33 bells returns that row.  (For larger stages Display is not parseable back.)", "quantifier": "every row of at most 33 bells, every string", "why_tests_cant": "33! rows and all strings", "anchors": ["src/row/owned.rs: RowBuf::parse", "src/row/borrowed.rs: Display for Row"]}
{"id": "C07", "title": "parse_with_stage extends with cover bells", "statement": "from_vec_with_stage / parse_with_stage succeeds exactly when the bells given are a (possibly empty) arrangement of the first k bells with k at most the stage, and then returns those bells followed by the remaining bells of the stage in order, which is a valid row of exactly that stage.", "quantifier": "every list of bells / string and every stage", "why_tests_cant": "infinitely many inputs and stages", "anchors": ["src/row/owned.rs: RowBuf::from_vec_with_stage, RowBuf::parse_with_stage"]}
{"id": "C08", "title": "parse_with_stage never panics and its errors tell the truth", "statement": "from_vec_with_stage never panics (slice and assert included); BellOutOfStage, DuplicateBell and MissingBell are each only reported for a bell that is respectively occurring and out of the stage, occurring twice, or absent while a larger bell is present.", "quantifier": "every list of bells and every stage", "why_tests_cant": "a quickcheck samples; a panic may need one particular string", "anchors": ["src/row/owned.rs: RowBuf::from_vec_with_stage"]}
{"id": "C09", "title": "Standard rows", "statement": "rounds, backrounds and queens of a stage are valid rows of that stage with the documented contents (ascending; descending; odd-numbered bells then even-numbered bells), and is_rounds / is_backrounds hold of a row exactly when it equals rounds / backrounds of its stage.", "quantifier": "every stage and every row", "why_tests_cant": "unbounded stages and all rows", "anchors": ["src/row/owned.rs: RowBuf::rounds, RowBuf::backrounds, RowBuf::queens", "src/row/borrowed.rs: Row::is_rounds, Row::is_backrounds"]}
{"id": "C10", "title": "Row multiplication is composition", "statement": "a.mul_result(b) is an error naming both stages exactly when the stages differ; otherwise it is a valid row of the same stage whose i-th bell is the bell of a at the place given by the i-th bell of b.  The * operator panics exactly when mul_result is an error.", "quantifier": "every pair of rows", "why_tests_cant": "all pairs of permutations of all sizes", "anchors": ["src/row/borrowed.rs: Row::mul_result, Row::mul_unchecked, Mul for &Row"]}
{"id": "C11", "title": "Rows of a stage form a group", "statement": "Multiplication is associative, rounds is a two-sided identity, inv() is a two-sided inverse, inverse is an involution and reverses products.", "quantifier": "all rows (triples of rows) of every stage", "why_tests_cant": "algebraic laws over all triples of permutations of every size", "anchors": ["src/row/borrowed.rs: Row::mul_result, Row::inv, Not for &Row"]}
{"id": "C12", "title": "In-place row operations agree with the pure ones", "statement": "mul_into, mul_into_row, inv_into, inv_into_buf, copy_into and overwrite_from leave in the output buffer exactly the product / inverse / copy, whatever the buffer held and whatever its stage; when they return an error the buffer is unchanged; they never panic.", "quantifier": "every row(s) and every previous content of the output buffer", "why_tests_cant": "previous buffer contents and stage relations are unbounded", "anchors": ["src/row/borrowed.rs: Row::mul_into, Row::mul_into_row, Row::inv_into, Row::inv_into_buf, Row::copy_into", "src/row/owned.rs: RowBuf::overwrite_from"]}
{"id": "C13", "title": "Solving row equations", "statement": "solve_ax_equals_b(a,b) is the unique row x with a*x=b and solve_xa_equals_b(a,b) the unique row x with x*a=b; both fail exactly on different stages.", "quantifier": "every pair of rows", "why_tests_cant": "all pairs of permutations", "anchors": ["src/row/borrowed.rs: Row::solve_ax_equals_b, Row::solve_xa_equals_b, Row::tranposition_to"]}
{"id": "C14", "title": "Powers and accumulators", "statement": "pow_u(n) is the n-fold product, pow_i of a negative exponent is the power of the inverse, exponents add under multiplication; a RowAccumulator after any sequence of accumulate / pre_accumulate / set holds exactly the corresponding product, and a failed step changes nothing.", "quantifier": "every row, every exponent, every sequence of accumulator operations", "why_tests_cant": "unbounded exponents and histories", "anchors": ["src/row/borrowed.rs: Row::pow_u, Row::pow_i", "src/row/accumulator.rs: RowAccumulator"]}
{"id": "C15", "title": "Parity", "statement": "parity() terminates without panicking on every row, leaves the row as rounds, and is Even exactly when every sequence of swaps that brings the row to rounds has even length; the parity of a product is the product of the parities. from_number, zero_or_one and plus_or_minus agree with the parity of numbers, and parities multiply as numbers add.", "quantifier": "every row and every sequence of swaps", "why_tests_cant": "quantifies over all sequences of swaps and all permutations", "anchors": ["src/row/borrowed.rs: Row::parity", "src/parity.rs: Parity::mul, Parity::from_number"]}
{"id": "C16", "title": "Effective stage", "statement": "effective_stage() is the smallest s >= 1 such that the first s bells are a valid row and all later bells are in their home places (equivalently the shortest prefix the row can be reduced to).", "quantifier": "every row", "why_tests_cant": "all permutations of every size", "anchors": ["src/row/borrowed.rs: Row::effective_stage"]}
{"id": "C17", "title": "Closure of a row", "statement": "closure() always terminates and returns r, r^2, ..., r^k with k the least positive exponent giving rounds: last is rounds, no repeats, and every power of r occurs.  closure_from_rounds() is the same list rotated to start with rounds.", "quantifier": "every row of every stage", "why_tests_cant": "termination and completeness for all permutations", "anchors": ["src/row/borrowed.rs: Row::closure, Row::closure_from_rounds"]}
{"id": "C18", "title": "Cartesian products of row sets", "statement": "multi_cartesian_product(sets) returns exactly the products x1*x2*...*xn with xi taken from the i-th set, with the right multiplicity (the lengths multiply); no sets give no rows; an error is returned only if two different stages occur, and mixing stages in non-empty sets is always an error.", "quantifier": "every list of lists of rows", "why_tests_cant": "unbounded number and size of sets", "anchors": ["src/row/borrowed.rs: Row::multi_cartesian_product"]}
{"id": "C19", "title": "Least group containing given rows", "statement": "least_group_containing(rows) terminates; for rows of one stage (at least one) the result is precisely the smallest set of rows that contains them, contains rounds and is closed under multiplication and inverse; rows of different stages give an error.", "quantifier": "every non-empty list of rows", "why_tests_cant": "termination and minimality over all generator sets", "anchors": ["src/row/borrowed.rs: Row::least_group_containing"]}
{"id": "C20", "title": "Group test", "statement": "is_group(rows) returns Ok(true) exactly when the set of rows contains rounds and is closed under multiplication and inverse (so not for the empty set); it errors exactly when two stages differ; the answer does not depend on hash iteration order or on duplicates.", "quantifier": "every list of rows and every hash iteration order", "why_tests_cant": "quantifies over all sets of permutations and all iteration orders", "anchors": ["src/row/borrowed.rs: Row::is_group"]}
{"id": "C21", "title": "fast_hash is collision free on the documented stages", "statement": "On a w-bit machine, whenever stage^stage <= 2^w (16-bit: 6 bells, 32-bit: 9, 64-bit: 16) two rows of that stage with equal fast_hash are equal, and fast_hash does not overflow.", "quantifier": "every pair of rows of each documented stage and word size", "why_tests_cant": "16! pairs; overflow only at the edge", "anchors": ["src/row/borrowed.rs: Row::fast_hash"]}
{"id": "C22", "title": "Place lookup, fixed bells, swap and extension", "statement": "place_of(b) is the unique place where b rings and is None exactly outside the stage; fixed_bells lists exactly the bells in their home place in ascending order; swap exchanges exactly the two places, keeps the row valid and panics exactly when out of range; extend_to_stage appends exactly the missing cover bells and panics exactly when the stage would shrink.", "quantifier": "every row, bell, pair of places and stage", "why_tests_cant": "all rows and indices", "anchors": ["src/row/borrowed.rs: Row::place_of, Row::fixed_bells, Row::swap", "src/row/owned.rs: RowBuf::extend_to_stage"]}
{"id": "C23", "title": "SameStageVec behaves as a list of rows", "statement": "After any sequence of operations (push, pop, extend, extend_from_buf, extend_transposed, pre_multiply, split, in-place row edits...) a SameStageVec is indistinguishable from a plain list of valid rows of its stage: len, is_empty, get, first, last, indexing and iteration return what the list would, and no operation panics as long as indices, ranges and places are in range and buffers to be transposed have the same stage (C28 and C112 say what happens otherwise; indexing panics exactly out of range). The buffer made from a single row holds exactly that row.", "quantifier": "every history of operations on every stage", "why_tests_cant": "unbounded histories", "anchors": ["src/row/same_stage_vec.rs: SameStageVec"]}
{"id": "C24", "title": "Failed SameStageVec operations change nothing", "statement": "push, extend, extend_from_buf, extend_transposed, pre_multiply that return IncompatibleStages leave the buffer exactly as it was, in particular extend after having already appended a prefix of the rows; the error names the two stages.", "quantifier": "every buffer and every sequence of rows", "why_tests_cant": "the failing row may sit at any position", "anchors": ["src/row/same_stage_vec.rs: SameStageVec::extend, push, extend_from_buf"]}
{"id": "C25", "title": "SameStageVec iterators", "statement": "However next and next_back are interleaved on iter(), the rows obtained from the front followed by the reverse of those obtained from the back, with the remaining ones between, are exactly the rows in order; len() is the number remaining; exhausted iterators keep returning None.", "quantifier": "every buffer and every interleaving of next / next_back", "why_tests_cant": "unbounded interleavings", "anchors": ["src/row/same_stage_vec.rs: Iter::next, Iter::next_back, Iter::len"]}
{"id": "C26", "title": "Bell paths", "statement": "path_of(bell) is None exactly when the bell is outside the stage, and otherwise lists for each row the unique place where the bell rings; the block version splits off the place in the leftover row.", "quantifier": "every buffer / block and bell", "why_tests_cant": "all contents and lengths", "anchors": ["src/row/same_stage_vec.rs: SameStageVec::path_of", "src/block.rs: AnnotBlock::path_of, full_path_of"]}
{"id": "C27", "title": "Splitting a SameStageVec", "statement": "split(i) is None exactly when i exceeds the number of rows, and otherwise gives two buffers, the first with exactly i rows, whose concatenation (extend_from_buf) is the original.", "quantifier": "every buffer and index", "why_tests_cant": "all lengths", "anchors": ["src/row/same_stage_vec.rs: SameStageVec::split", "src/utils.rs: split_vec"]}
{"id": "C28", "title": "Transposed extension of a SameStageVec", "statement": "extend_range_transposed, extend_transposed, extend_transposed_from_within and pre_multiplied append exactly the pre-multiplied rows of the requested range (for every form of range bound) and keep all rows valid; they report an error when stages are incompatible.", "quantifier": "every buffer, source buffer, range and transposition", "why_tests_cant": "all ranges and contents, including a source of a different stage", "anchors": ["src/row/same_stage_vec.rs: extend_range_transposed, extend_transposed_from_within, pre_multiplied", "src/utils.rs: clamp_range"]}
{"id": "C29", "title": "Parsing a SameStageVec", "statement": "SameStageVec::parse returns the rows of the lines in order when every line is a valid row of the same stage, otherwise an error with the 1-based number of the first bad line; it never panics.", "quantifier": "every string", "why_tests_cant": "all strings, including the empty one", "anchors": ["src/row/same_stage_vec.rs: SameStageVec::parse", "src/block.rs: AnnotBlock::parse"]}
{"id": "C30", "title": "AnnotBlock always has one more row than annotations", "statement": "After any sequence of block constructions and operations (extend_range only with the whole range: C31 covers the others) the number of rows is the number of annotations plus one, all rows are valid rows of the stage, and the getters (len, get_row, get_annot, get_annot_row, leftover_row, rows, annot_rows) agree with the plain list of annotated rows. Such a sequence panics exactly when extend_from_within is given a range outside the block. Mapping the annotations keeps every row and the left-over row.", "quantifier": "every history of block operations", "why_tests_cant": "unbounded histories; the invariant is relied upon by zip_eq and unwrap", "anchors": ["src/block.rs: AnnotBlock"]}
{"id": "C31", "title": "Extending a block", "statement": "extend(other) appends other's annotated rows pre-multiplied so that other's first row becomes the old leftover row; the leftover row becomes the correspondingly transposed leftover row; extend_range does the same for a sub-range; mismatched stages give an error and change nothing.", "quantifier": "every pair of blocks and range", "why_tests_cant": "all blocks and ranges", "anchors": ["src/block.rs: AnnotBlock::extend, extend_range"]}
{"id": "C32", "title": "Extending a block from within", "statement": "extend_from_within(range) appends the annotated rows of that range of the block itself, transposed to start at the old leftover row, never panics for ranges inside the block, panics for every other range, and leaves the earlier rows untouched.", "quantifier": "every block and range within it", "why_tests_cant": "all blocks and ranges", "anchors": ["src/block.rs: AnnotBlock::extend_from_within", "src/row/same_stage_vec.rs: extend_transposed_from_within"]}
{"id": "C33", "title": "Splitting a block", "statement": "split(i) is None exactly when i exceeds the length, otherwise gives blocks of length i and len-i whose rows and annotations are those of the original, the leftover of the first being the first row of the second, and extending the first by the second restores the original.", "quantifier": "every block and index", "why_tests_cant": "all blocks and indices", "anchors": ["src/block.rs: AnnotBlock::split"]}
{"id": "C34", "title": "Repeating a block", "statement": "The n-th item of repeat_iter(start) is start * leftover^(n / len) * row[n mod len] with source index n mod len and that row's annotation, for all n; the iterator of an empty block yields nothing; next_into gives the same rows as next.", "quantifier": "every block, start row and number of steps", "why_tests_cant": "infinite iterator", "anchors": ["src/block.rs: AnnotBlock::repeat_iter, RepeatIter"]}
{"id": "C35", "title": "Block effective stage", "statement": "effective_stage() of a block is the largest effective stage of its rows including the leftover row, and never panics.", "quantifier": "every block", "why_tests_cant": "all blocks", "anchors": ["src/block.rs: AnnotBlock::effective_stage", "src/call.rs: Call::effective_stage"]}
{"id": "C36", "title": "Place notation parsing and implicit places", "statement": "PlaceNot::parse succeeds exactly when the string is a lone cross on an even stage, or its bell names are non-empty, distinct, within the stage and every gap between consecutive places is even or exactly one; the places are then the written ones plus exactly the implied ones (lead, lie and single gaps), strictly ascending, and describe a legal change. The cross exists exactly on even stages and exchanges the bells in pairs.", "quantifier": "every string and stage", "why_tests_cant": "all strings and stages", "anchors": ["src/place_not.rs: PlaceNot::parse, PlaceNot::from_sorted_slice, PlaceNot::cross"]}
{"id": "C37", "title": "Place notation errors tell the truth", "statement": "OddStageCross only on a cross at an odd stage; NoPlacesGiven only when no bell name occurs; PlaceOutOfStage names the largest place, which is out of stage; DuplicatePlace names a place written twice; AmbiguousPlacesBetween names two consecutive written places with an odd gap of at least three; parsing never panics.", "quantifier": "every string and stage", "why_tests_cant": "all strings and stages", "anchors": ["src/place_not.rs: PlaceNot::parse, PlaceNot::from_sorted_slice, ParseError"]}
{"id": "C38", "title": "Applying a place notation", "statement": "permute / permute_new keep bells at the made places fixed and exchange all other bells in adjacent pairs, so the result is a valid row; it never panics for a parsed place notation; different stages give an error and leave the row unchanged.", "quantifier": "every place notation and row", "why_tests_cant": "all place notations and rows of every stage", "anchors": ["src/place_not.rs: PlaceNot::permute, permute_unchecked, permute_new"]}
{"id": "C39", "title": "Place notation as transposition", "statement": "transposition() is an involution, applying a place notation to a row equals multiplying the row by transposition(), and applying it twice restores the row.", "quantifier": "every place notation and row", "why_tests_cant": "all place notations and rows", "anchors": ["src/place_not.rs: PlaceNot::transposition, permute_new"]}
{"id": "C40", "title": "Place notation between rows", "statement": "pn_between(r1,r2) returns Some(pn) exactly when pn is a legal place notation of that stage with pn applied to r1 giving r2; hence None exactly when no place notation leads from r1 to r2, and the result is unique.", "quantifier": "every pair of rows", "why_tests_cant": "all pairs of rows", "anchors": ["src/place_not.rs: PlaceNot::pn_between"]}
{"id": "C41", "title": "Place notation display round-trips", "statement": "Parsing the Display output of any legal place notation on at most 33 bells returns it, cross included.", "quantifier": "every legal place notation on up to 33 bells", "why_tests_cant": "exponentially many place notations", "anchors": ["src/place_not.rs: Display for PlaceNot, PlaceNot::parse"]}
{"id": "C42", "title": "Place notation queries", "statement": "contains(p) tells whether the bell in place p stays; is_cross holds exactly when no bell stays; has_internal_places holds exactly when some place other than the first and last is made.", "quantifier": "every legal place notation", "why_tests_cant": "all place notations", "anchors": ["src/place_not.rs: PlaceNot::contains, is_cross, has_internal_places"]}
{"id": "C43", "title": "Blocks of place notation", "statement": "PnBlock::parse returns exactly the list of changes described by the string: comma-separated parts; in a string with a comma each part not starting with + is followed by its mirror image without the last change repeated; within a part, changes are crosses or maximal runs of places separated by dots, spaces or crosses, other chars being ignored.  The result is never empty and all changes are legal and of the given stage; it never panics.", "quantifier": "every string and stage", "why_tests_cant": "all strings", "anchors": ["src/place_not.rs: PnBlock::parse, PnBlock::parse_asym_block, CharMeaning::from"]}
{"id": "C44", "title": "Positions in block parse errors", "statement": "The byte index in PlusNotAtBlockStart is the position of a '+' in the input string, and the byte range in PnError lies within the input and covers the offending place notation. Positions count bytes of the UTF-8 encoding, so that the bytes before a position encode the characters before it.", "quantifier": "every string rejected by PnBlock::parse", "why_tests_cant": "all strings with any number of comma-separated parts", "anchors": ["src/place_not.rs: PnBlock::parse_asym_block, PnBlockParseError"]}
{"id": "C45", "title": "Expanding place notation to rows", "statement": "PnBlock::from_vec accepts exactly non-empty lists of one stage and reports the index of the first mismatch; to_rows(start) has one more row than changes, starts with start, consecutive rows are related by the respective change, and the last row is start times the product of the transpositions; to_block adds default annotations. An accepted block says how many changes it has and the stage of each.", "quantifier": "every list of place notations and start row", "why_tests_cant": "all lists and rows", "anchors": ["src/place_not.rs: PnBlock::from_vec, to_rows, to_block, to_block_from_rounds"]}
{"id": "C46", "title": "Mask matching and transposition", "statement": "A mask with at least one place matches a row exactly when their stages agree and every specified place holds the specified bell; for a row r of its stage, s matches m exactly when s*r matches m*r and exactly when r*s matches r*m (for the latter the mask may name only bells of the stage). Products of a mask and a row of another stage, or with bells outside the stage, panic.", "quantifier": "every mask and row", "why_tests_cant": "all masks and rows", "anchors": ["src/mask.rs: Mask::matches, Mul<&Row> for &Mask, Mul<&Mask> for &Row"]}
{"id": "C47", "title": "Mask compatibility and combination", "statement": "For well-formed masks, is_compatible_with holds exactly when some row matches both; combine returns Some exactly then, and the combined mask matches exactly the rows matching both. For any masks with at least one place, even ones which ask for a bell several times, neither call panics and combine returns Some exactly when is_compatible_with is true.", "quantifier": "every pair of well-formed masks", "why_tests_cant": "existence of a common row quantifies over all rows", "anchors": ["src/mask.rs: Mask::is_compatible_with, Mask::combine"]}
{"id": "C48", "title": "Mask subset test", "statement": "a.is_subset_of(b) holds exactly when every row matching a matches b.", "quantifier": "every pair of well-formed masks", "why_tests_cant": "quantifies over all rows and masks", "anchors": ["src/mask.rs: Mask::is_subset_of"]}
{"id": "C49", "title": "Mask to row", "statement": "as_row() returns a valid row matching the mask exactly when the mask matches exactly one row.", "quantifier": "every mask constructible through the safe API", "why_tests_cant": "quantifies over all masks and rows", "anchors": ["src/mask.rs: Mask::as_row, Mask::parse, Mask::set_bell"]}
{"id": "C50", "title": "Fixing bells in a mask", "statement": "set_bell / fix succeed exactly when the bell is not already specified elsewhere, then specify exactly that bell at that place and nothing else; a failure changes nothing; fix_bells fixes exactly the given bells at home.", "quantifier": "every mask, bell and place", "why_tests_cant": "all masks", "anchors": ["src/mask.rs: Mask::set_bell, Mask::fix, Mask::fix_bells, Mask::place_of, Mask::unspecified_places, Mask::is_empty"]}
{"id": "C51", "title": "Masks as regexes", "statement": "Converting a mask to a Regex preserves the set of matching rows.", "quantifier": "every mask and row", "why_tests_cant": "all masks and rows", "anchors": ["src/mask.rs: From<Mask> for Regex"]}
{"id": "C52", "title": "Regex normalisation", "statement": "normalise preserves the set of matched bell sequences, its output is in normal form (a glob is followed by a bell or the end), it is idempotent, keeps the bells in order and the number of single wildcards, and never panics.", "quantifier": "every list of regex elements and every bell sequence", "why_tests_cant": "language equality quantifies over all sequences", "anchors": ["src/music.rs: Regex::normalise, Regex::from_vec, Regex::parse"]}
{"id": "C53", "title": "Regex matching is correct", "statement": "For every regex built through the safe parsing constructors and every row, matches() is true exactly when the row belongs to the language of the elements as written (bell = that bell, x = any one bell, * = any sequence), although the matcher never backtracks; it never panics.", "quantifier": "every regex and row", "why_tests_cant": "all patterns against all rows", "anchors": ["src/music.rs: Regex::matches, Regex::run_match"]}
{"id": "C54", "title": "Regex match positions", "statement": "match_pattern returns Some exactly when the row matches, and then the strictly ascending list of places at which the regex's bells ring, in order.", "quantifier": "every regex and row", "why_tests_cant": "all patterns against all rows", "anchors": ["src/music.rs: Regex::match_pattern"]}
{"id": "C55", "title": "Run regexes", "statement": "A row matches one of runs_front / runs_back / all_runs(stage, len) exactly when it has a run of len consecutive ascending or descending bells at the front / at the back / anywhere; too long a length gives no regexes; matching them never panics.", "quantifier": "every stage, run length and row", "why_tests_cant": "all stages, lengths and rows", "anchors": ["src/music.rs: Regex::runs_front, runs_back, all_runs, runs_front_or_back, runs"]}
{"id": "C56", "title": "Counting matching rows", "statement": "num_matching_rows(stage) is the number of rows of the stage matched by the regex, or None if the computation overflows.", "quantifier": "every regex and stage", "why_tests_cant": "counting ranges over all n! rows", "anchors": ["src/music.rs: Regex::num_matching_rows"]}
{"id": "C57", "title": "Binomial coefficients", "statement": "choice(n,k) for k <= n is the binomial coefficient whenever it returns Some, returns Some whenever the numerator product fits in a usize, and the unchecked denominator never overflows.", "quantifier": "every n, k and word size", "why_tests_cant": "all pairs of integers; overflow at the edge", "anchors": ["src/utils.rs: choice"]}
{"id": "C58", "title": "Run length", "statement": "run_len(bells) is the length of the longest prefix in which neighbouring bells differ by exactly one.", "quantifier": "every bell sequence", "why_tests_cant": "all sequences, including the empty one", "anchors": ["src/utils.rs: run_len"]}
{"id": "C59", "title": "Plain course of a method", "statement": "For a method whose first lead starts at rounds, plain_course() terminates, ends at rounds for the first time at a lead end, consists of the lead repeated under successive powers of the lead head with sub-lead indices and labels repeating, and row_in_plain_course(i) is its i-th row (cyclically) unless the lead has no rows. If the lead starts elsewhere, plain_course() terminates exactly when some power of its transposition leads back to rounds, and never panics.", "quantifier": "every first lead and index", "why_tests_cant": "termination for all lead heads; unbounded index", "anchors": ["src/method/mod.rs: Method::plain_course, row_in_plain_course, row_in_plain_lead"]}
{"id": "C60", "title": "Lead labels", "statement": "After any sequence of set_label calls get_label returns the last label set at that index and label_indices(l) lists exactly the indices carrying l in ascending order; rows are unaffected; out-of-range indices panic.", "quantifier": "every history of label updates", "why_tests_cant": "unbounded histories", "anchors": ["src/method/mod.rs: set_label, get_label, label_indices, set_lead_end_label, with_lead_end"]}
{"id": "C61", "title": "Bell cycles of a lead", "statement": "The cycles used for classification partition the bells of the stage: each bell is in exactly one cycle, each cycle is an orbit of the lead head, hunt bells are exactly the bells fixed by the lead head, and a cycle's path is the concatenation of the paths of its place bells; the computation terminates and does not panic for a non-empty lead starting at rounds.", "quantifier": "every lead starting at rounds", "why_tests_cant": "all lead heads on all stages", "anchors": ["src/method/class.rs: Cycle::cycles_from_lead, Cycle::partition_cycles"]}
{"id": "C62", "title": "Method classification", "statement": "classify: Principle exactly when no bell is fixed by the lead head; differential exactly when two working cycles differ in length; the class is that of the dominant hunt bell and does not depend on hash order; Little exactly when every dominant hunt bell misses some place; Plain / Treble Dodging / Treble Place / Alliance / Hybrid decided by the documented path conditions; Surprise / Delight / Treble Bob by internal places at all / some / none of the cross sections; never a jump method.", "quantifier": "every lead starting at rounds made of legal changes, every hash order", "why_tests_cant": "all methods on all stages; the test suite only samples the published library", "anchors": ["src/method/class.rs: classify, classify_hunt_cycle, sub_classify_treble_dodging, sub_classify_plain, is_palindromic"]}
{"id": "C63", "title": "Method titles", "statement": "generate_title is the name, the title form of the class and the stage name joined by single spaces with empty parts omitted; it succeeds exactly on stages with a name.", "quantifier": "every name, class and stage", "why_tests_cant": "all strings and stages", "anchors": ["src/method/mod.rs: generate_title", "src/method/class.rs: FullClass::fmt_name"]}
{"id": "C64", "title": "Method library lookup", "statement": "get_by_title is case-insensitive; it returns the stored method (expanded from its place notation on the stage named by the title's last word) exactly when the lower-cased title is stored under that stage, NotFound otherwise, and a parse error only when the stored notation is invalid; the suggestions variant agrees and lists the closest titles first. unwrap_parse_err of the error of a search panics exactly when the method is stored (with a notation that cannot be parsed) and otherwise hands back what NotFound holds.", "quantifier": "every library and title", "why_tests_cant": "all libraries and strings", "anchors": ["src/method_lib/mod.rs: get_by_title, get_by_title_with_suggestions, generate_suggestions", "src/method_lib/mod.rs: QueryError::unwrap_parse_err, QueryError::map_not_found"]}
{"id": "C65", "title": "Method library serialisation round-trips", "statement": "Converting a library to its compact form and back yields the same library (same lookup result for every stage and title) whatever the hash order of the grouping, provided titles are stored under their lower-case form and stages have names.", "quantifier": "every such library and hash order", "why_tests_cant": "all libraries and orders", "anchors": ["src/method_lib/lib_serde.rs: From<&MethodLib> for MethodLibSerde, From<MethodLibSerde> for MethodLib, to_class_id, from_class_id"]}
{"id": "C66", "title": "Serde of bells and stages round-trips", "statement": "Deserialising a serialised Stage or Bell returns the same value, and deserialisation of bad input reports an error rather than panicking.", "quantifier": "every bell and stage", "why_tests_cant": "all integers", "anchors": ["src/bell.rs: Serialize/Deserialize for Bell", "src/stage.rs: Serialize/Deserialize for Stage"]}
{"id": "C67", "title": "Calls", "statement": "A call made from a block of place notation covers and generates as many rows as it has changes, starts at rounds, and its transposition is the product of the transpositions of its changes. The effective stage of such a call is the least number of bells such that each of its changes makes every place above.", "quantifier": "every block of place notation", "why_tests_cant": "all blocks", "anchors": ["src/call.rs: Call::le_bob, Call::le_single, transposition, len, cover_len, stage"]}
{"id": "C68", "title": "Safe code never makes an invalid row", "statement": "Whatever sequence of safe row, accumulator and place-notation operations a program performs, every row it can get hold of contains each bell of its stage exactly once, and no unchecked access is ever out of bounds.", "quantifier": "every program, i.e. every finite history of safe operations", "why_tests_cant": "unbounded histories; README goal 'Reliability'", "anchors": ["README.md: Goals", "src/row/owned.rs", "src/row/borrowed.rs", "src/place_not.rs", "src/mask.rs"]}
{"id": "C69", "title": "Mask text", "statement": "Mask::parse reads one place per bell name or x/X/. and ignores every other char; parsing the display of a mask whose bells have one-char names returns the mask.", "quantifier": "all texts and all masks", "why_tests_cant": "Texts and masks are unbounded; a wrong reading of one char or one bell name shows only on texts containing it.", "anchors": ["src/mask.rs: Mask::parse, Display"]}
{"id": "C70", "title": "Regex text", "statement": "The text displayed for a regex denotes exactly its elements, and parsing it returns the same regex when it is in normal form and its bells have one-char names. The bells of a regex are those given by its elements.", "quantifier": "all regexes over the named bells", "why_tests_cant": "Regexes are unbounded sequences; only a proof covers every interleaving of bells, wildcards and globs.", "anchors": ["src/music.rs: Regex::parse, Display for Regex"]}
{"id": "C71", "title": "Methods from place notation", "statement": "Method::from_place_not_string makes the method whose lead is the changes described by the text rung from rounds, without labels, with the name given, the class found by classifying the lead and the generated title; parse errors are passed on and stages without a name panic. Method::with_lead_end does the same from changes and labels the last row of the lead, and only that one, as the lead end. A method made by name from a lead keeps the lead and its labels.", "quantifier": "all names, stages, texts, blocks of changes and hash orders", "why_tests_cant": "Texts and leads are unbounded, and the classification walks a hash set whose order no test controls.", "anchors": ["src/method/mod.rs: Method::with_name, Method::from_place_not_string, Method::with_lead_end, Method::set_lead_end_label"]}
{"id": "C72", "title": "Text of a class", "statement": "The text displayed for the class of a method is its words (Jump, Differential, Little, class name) joined with single spaces, and different classes have different texts.", "quantifier": "all classes", "why_tests_cant": "Injectivity ranges over all pairs of classes.", "anchors": ["src/method/class.rs: FullClass::fmt_name, Display for FullClass, Class::name"]}
{"id": "C73", "title": "Displayed texts are unambiguous", "statement": "Two rows, two masks, two music patterns, two stages or two place notations of the same stage which are displayed with the same text are equal, whatever the number of bells. Likewise the debug texts of bells, masks, regexes, rows and place notations determine them. A debug text is never a displayed one.", "quantifier": "all pairs of rows, masks, patterns, stages and place notations", "why_tests_cant": "Injectivity ranges over all pairs of values on any number of bells, including bells without a one-character name.", "anchors": ["src/row/borrowed.rs: Display for Row", "src/mask.rs: Display for Mask", "src/music.rs: Display for Regex", "src/place_not.rs: Display for PlaceNot", "src/stage.rs: Display for Stage", "src/bell.rs: Display for Bell"]}
{"id": "C74", "title": "Error messages", "statement": "The message of an error determines which error it is and the bells, stages, lines and positions in it (for errors in blocks of place notation, all but the end of the range). Displaying an error returned by the parsers of place notation never panics. The message of a failed call says what is wrong with its arguments, with the bells, stages and lines in the right roles.", "quantifier": "all pairs of errors of each type; all texts and stages", "why_tests_cant": "The messages contain numbers of any size; the message for ambiguous places subtracts, so it relies on an invariant of the parser.", "anchors": ["src/row/errors.rs: Display for InvalidRowError, MulIntoError", "src/stage.rs: Display for IncompatibleStages", "src/row/same_stage_vec.rs: Display for ParseError", "src/block.rs: Display for ParseError", "src/place_not.rs: Display for ParseError, PnBlockParseError, InvalidPnBlockError"]}
{"id": "C75", "title": "Debug texts", "statement": "The debug text of a buffer of rows names the type and lists the rows in order; that of an annotated block lists each row with its annotation, then the left-over row. The debug text of a non-empty buffer determines its stage and rows, and that of a block also its annotations, if their debug texts have no commas and determine them.", "quantifier": "all buffers, blocks, stages and annotation types", "why_tests_cant": "Buffers and annotations are unbounded.", "anchors": ["src/row/same_stage_vec.rs: Debug for SameStageVec", "src/block.rs: Debug for AnnotBlock", "src/row/borrowed.rs: Debug for Row", "src/row/owned.rs: Debug for RowBuf", "src/stage.rs: Debug for Stage"]}
{"id": "C76", "title": "Comparison, equality and hashing", "statement": "Rows are ordered as words in a dictionary: the order is total, agrees with equality, and rounds is the least and backrounds the greatest row of a stage. Buffers are equal exactly if they have the same stage and rows, blocks exactly if they have the same stage, rows, annotations and left-over row. Equal rows, owned or borrowed, and equal buffers are hashed alike, and different ones feed the hasher differently.", "quantifier": "all pairs and triples of rows, buffers and blocks", "why_tests_cant": "The laws of an order range over all triples of rows.", "anchors": ["src/row/owned.rs: RowBuf derives", "src/row/borrowed.rs: Row derives", "src/row/same_stage_vec.rs: SameStageVec derives", "src/block.rs: AnnotBlock derives"]}
{"id": "C77", "title": "Caught panics leave values intact", "statement": "If a call panics and the caller catches the panic, every value the caller has is as it was before the call, so the program can go on: its rows are valid, and no later call reads out of bounds.", "quantifier": "all programs over the safe API which catch every panic and go on, all points of them, and all calls which panic there", "why_tests_cant": "It ranges over every history of calls, every point at which one of them panics, and every history after that.", "anchors": ["src/block.rs: AnnotBlock::extend_range, AnnotBlock::extend_from_within, RepeatIter", "src/row/same_stage_vec.rs: SameStageVec::extend, extend_range_transposed, extend_transposed_from_within, pop", "src/row/borrowed.rs: mul_into, inv_into, parity", "src/row/accumulator.rs: RowAccumulator", "src/place_not.rs: PlaceNot::permute"]}
{"id": "C78", "title": "Machine integers cannot be told from exact ones", "statement": "A program over the safe API behaves on a machine with words of any width as it would with unbounded integers, or panics: in particular it never obtains a row which is not one because some arithmetic wrapped around.", "quantifier": "all programs over the safe API, all word widths, builds with and without overflow checks, all row numbers, range ends and exponents", "why_tests_cant": "The numbers for which the arithmetic wraps depend on the width and the stage; tests use small row numbers and one build.", "anchors": ["src/row/same_stage_vec.rs: SameStageVec::get, split, get_range_of_row, to_bell_range, extend_range_transposed", "src/block.rs: AnnotBlock::extend_range, get_row", "src/row/borrowed.rs: pow_i", "src/method/mod.rs: Method::row_in_plain_lead"]}
{"id": "C79", "title": "Numbers near the ends of the machine word", "statement": "What get, split, ranges of rows, bell arithmetic, pow_i, run lengths and num_matching_rows do with any number that fits into a machine word is determined: the exact answer if the products and sums they form fit into a word; otherwise a panic with overflow checks, and without them the answer for the wrapped number (which may be rows past the end, parts of two rows, an empty range, or a wrong count).", "quantifier": "all word widths, both kinds of build, all numbers of that width, all vectors, blocks, rows and regexes", "why_tests_cant": "The set of numbers is 2^w for each width and the borders move with the stage.", "anchors": ["src/row/same_stage_vec.rs: SameStageVec::get, split, to_bell_range, extend_range_transposed", "src/block.rs: AnnotBlock::extend_range", "src/bell.rs: Bell::number, Add, Sub", "src/row/borrowed.rs: pow_i", "src/music.rs: Regex::num_matching_rows, choice, run lengths"]}
{"id": "C80", "title": "Rows and changes determine each other", "statement": "Ringing a block of legal changes and reading off the place notation between consecutive rows gives the changes back; conversely rows with a place notation between each two consecutive ones are the rows rung by these place notations. So blocks which ring the same rows are the same. Ringing from another start multiplies every row by that start, two blocks rung one after the other ring their rows one after the other, and a block rung backwards rings the rows backwards.", "quantifier": "all blocks of legal changes of all stages, all start rows, all lists of rows", "why_tests_cant": "It relates two functions on every sequence of changes.", "anchors": ["src/place_not.rs: PlaceNot::pn_between, PnBlock::to_block, PnBlock::to_rows"]}
{"id": "C81", "title": "Texts of place notation written out", "statement": "Legal changes on a stage whose places have names (at most 33 bells), written one after another as they are displayed, with dots or spaces between two changes which both make places and anywhere else they are wanted, parse back to these changes; two texts with a dot or space between them parse to the changes of the one followed by those of the other; and the lead head of a block written as two mirrored halves is the product of two rows which are their own inverses.", "quantifier": "all lists of legal changes, all ways of writing them, all stages", "why_tests_cant": "It ranges over all texts and all ways to write the same changes.", "anchors": ["src/place_not.rs: PnBlock::parse, PlaceNot::parse, Display"]}
{"id": "C82", "title": "Laws of blocks", "statement": "Extending blocks is associative, the empty block is its unit (up to moving the other block to start from rounds), multiplying by a row commutes with extending and does not matter for the block which is added, and splitting undoes extending.", "quantifier": "all triples of blocks of a stage with any annotations, all rows of the stage", "why_tests_cant": "It is an equality between results of different histories of calls for all blocks.", "anchors": ["src/block.rs: AnnotBlock::extend, pre_multiply, split, empty"]}
{"id": "C83", "title": "Closures, least groups and the group test agree", "statement": "The closure of a row is the least group containing it; closures and least groups pass is_group; rows pass is_group exactly if the least group containing them has no others; a power is rounds exactly if the exponent is a multiple of the length of the closure; the inverse is the power before it and has the same closure; and sizes of groups divide the sizes of groups they are in.", "quantifier": "all rows, all sets of rows of a stage, all exponents", "why_tests_cant": "It relates four functions on all sets of rows; the sizes grow as factorials.", "anchors": ["src/row/borrowed.rs: Row::closure, least_group_containing, is_group, pow_u, inv"]}
{"id": "C84", "title": "Laws of parity", "statement": "Rounds is even, inverses have the same parity, odd powers of a row have its parity and even powers are even, odd rows have even order; a change is odd exactly if it swaps an odd number of pairs, and the parity of a row rung in a block is that of the start changed once for every pair swapped.", "quantifier": "all rows, exponents, legal changes and blocks of them", "why_tests_cant": "It ranges over all rows and all sequences of changes.", "anchors": ["src/row/borrowed.rs: Row::parity", "src/parity.rs", "src/place_not.rs: PlaceNot::transposition"]}
{"id": "C85", "title": "From text to plain course", "statement": "The plain course of the method made from a text starts from rounds, rings the changes the text describes in their order over and over (the place notation between consecutive rows is the change whose turn it is), and ends with the first lead end which is rounds; asking for rows by number goes on like this for ever.", "quantifier": "all texts, stages, names and row numbers", "why_tests_cant": "It crosses parsing, blocks, multiplication and the loop of the course, for all texts and lengths.", "anchors": ["src/method/mod.rs: Method::from_place_not_string, plain_course, row_in_plain_course", "src/place_not.rs: PnBlock::parse"]}
{"id": "C86", "title": "Libraries survive JSON text", "statement": "A library written with to_json and read with from_json has exactly the same entries and the same answer to every search, whatever characters its texts contain. Reading any other text ends with a library, an error or a panic, and it panics exactly for JSON with the fields of a library in which a group has no bells, an unknown class number, or an untitled method on an unnamed stage.", "quantifier": "all libraries, iteration orders of hash maps, texts and JSON values of any nesting", "why_tests_cant": "It ranges over all texts, with all escapes, spaces, numbers and nestings.", "anchors": ["src/method_lib/mod.rs: MethodLib::to_json, MethodLib::from_json", "src/method_lib/lib_serde.rs"]}
{"id": "C87", "title": "The cached library through failures and crashes", "statement": "Starting without a cache file, whatever the network answers, wherever writing fails and at whatever byte a process or the machine stops: each call of cc_lib that returns a library returns the one of a text served to it or to an earlier call; None means that a request was made and failed; no call panics because of the cache file. Once a text was saved whole, all later calls return its library without a request.", "quantifier": "all histories of calls, answers, write errors and crash points", "why_tests_cant": "It ranges over all crash points and histories.", "anchors": ["src/method_lib/mod.rs: MethodLib::cc_lib, load_cc_lib_from_cache, fetch_cc_lib, cache_file_path"]}
{"id": "C88", "title": "A cache file which cannot be loaded counts as none", "statement": "If the cached copy cannot be loaded, cc_lib behaves as if there were no file: it fetches the library, returns it and replaces the file.", "quantifier": "all contents of the cache file, answers and outcomes of writing", "why_tests_cant": "It ranges over all byte strings a file may contain.", "anchors": ["src/method_lib/mod.rs: MethodLib::cc_lib, load_cc_lib_from_cache"]}
{"id": "C89", "title": "Overlapping calls of cc_lib", "statement": "However calls of cc_lib in several threads or processes overlap, reading and writing the cache file in pieces and failing or stopping anywhere, each call returns None after a failed request or the library of a text that was served, and none panics.", "quantifier": "all schedules of any number of calls, sizes of reads and writes, failures and crash points", "why_tests_cant": "It ranges over all interleavings.", "anchors": ["src/method_lib/mod.rs: MethodLib::cc_lib, load_cc_lib_from_cache, fetch_cc_lib"]}
{"id": "C90", "title": "The texts which from_json accepts are JSON", "statement": "from_json understands a text exactly when RFC 8259 says that it is a JSON text and its value has the fields of a library; no text has two values; the text written by to_json is such a text, and holds for every method of the library its fields, and for nothing else.", "quantifier": "all texts, JSON values and libraries", "why_tests_cant": "It ranges over all texts, with all spaces, escapes, numbers and nestings.", "anchors": ["src/method_lib/mod.rs: MethodLib::to_json, MethodLib::from_json", "src/method_lib/lib_serde.rs: MethodLibSerde, MethodGroup, CompactMethodSerde"]}
{"id": "C91", "title": "Iterators over rows keep the contract of the standard iterator traits", "statement": "The iterators of a buffer and of a block answer next, next_back, size_hint and len, in any order, as the list of their rows does, so every adapter of the standard library (rev, map, enumerate, take, skip, zip, nth, nth_back, rposition), and stacks of them, give what they give for that list and do not panic.", "quantifier": "all buffers and blocks, all sequences of questions, all adapters around them with all their arguments", "why_tests_cant": "It ranges over every interleaving of questions, every stack of adapters and every length.", "anchors": ["src/row/same_stage_vec.rs: Iter, SameStageVec::iter", "src/block.rs: Block::rows, Block::all_rows"]}
{"id": "C92", "title": "Code of the caller inside calls on blocks runs once per annotation, and its panics do no harm", "statement": "with_annots_from_indices, with_default_annots, map_annots, map_annots_with_index, clone_map_annots_with_index, extend and extend_from_within call the closure, default or clone given by the caller exactly once for each annotation, in order and with its index, whatever state it keeps, and put what it returns beside the right row; if it panics, the panic reaches the caller and every block the caller still has is as it was before.", "quantifier": "all blocks and buffers, all closures, defaults and clones with any state, any point at which they panic", "why_tests_cant": "It ranges over all code of the caller and over every point at which it may panic.", "anchors": ["src/block.rs: AnnotBlock::with_annots_from_indices, with_default_annots, map_annots, map_annots_with_index, clone_map_annots_with_index, extend, extend_range, extend_from_within"]}
{"id": "C93", "title": "Calls of the API come to an end", "statement": "Every call of the safe API returns or panics after finitely many steps, whatever values earlier calls have made; none loops for ever.", "quantifier": "all programs over the API: any calls, any arguments, any order", "why_tests_cant": "A test cannot wait for ever, and the claim ranges over every history of calls.", "anchors": ["src/row/borrowed.rs: Row::parity, closure, closure_from_rounds, least_group_containing", "src/method/mod.rs: Method::plain_course, Method::new", "src/block.rs: AnnotBlock::extend_range", "src/mask.rs: Mask::as_row"]}
{"id": "C94", "title": "The safety conditions of the unsafe functions are enough", "statement": "A program which keeps the condition in the section \"Safety\" of each unsafe function it calls never reads out of bounds and only ever holds valid rows, and each unsafe function then does what the checked function beside it does; get_bell_unchecked gives the bell at the place; from_bell_vec_unchecked gives a sequence of exactly the rows that were concatenated; from_sorted_slice gives the notation of the places.", "quantifier": "all programs over the safe and unsafe API which keep the conditions", "why_tests_cant": "It ranges over every history of calls, and a violated condition need not show at the call which violates it.", "anchors": ["src/row/owned.rs: RowBuf::from_vec_unchecked, from_bell_iter_unchecked", "src/row/borrowed.rs: Row::get_bell_unchecked, mul_unchecked, mul_into_unchecked, mul_into_row_unchecked, tranposition_to_unchecked, from_slice_unchecked, from_mut_slice_unchecked", "src/row/same_stage_vec.rs: SameStageVec::from_bell_vec_unchecked", "src/place_not.rs: PlaceNot::from_sorted_slice, permute_unchecked, permute_new_unchecked, PnBlock::from_vec_unchecked", "src/music.rs: Regex::from_vec_unchecked, from_elems_unchecked", "src/mask.rs: Mask::fix_unchecked, set_bell_unchecked"]}
{"id": "C95", "title": "The Central Council's XML becomes the library it describes", "statement": "parse_cc_lib gives the library with exactly the methods the document lists, each under its stage with its title, name, class and notation (the last one, if a title occurs twice on a stage), and panics exactly when the text is not XML or the document lacks something that is needed; every listed method can then be found by its title, also after the library was written to JSON and read back.", "quantifier": "all XML trees, all behaviours of the XML reader, all titles", "why_tests_cant": "It ranges over every document, with elements missing, repeated, in any order or of other namespaces, and over every title.", "anchors": ["src/method_lib/parse_cc_lib.rs: parse_cc_lib, read_methods, read_properties", "src/method_lib/mod.rs: MethodLib::get_by_title, to_json, from_json", "src/method_lib/lib_serde.rs: MethodLibSerde::from, MethodLib::from"]}
{"id": "C96", "title": "No unchecked read is out of bounds, in any build", "statement": "Whatever a program over the safe API does, with or without overflow checks and debug assertions, with words of any width, with buffers of different stages and with row numbers of any size: the unchecked reads of the library stay in bounds, and no row the program gets holds a bell beyond the stage of that row.", "quantifier": "all programs over the safe API, all word widths, builds with and without checks", "why_tests_cant": "It ranges over every history of calls; tests run one build, and the values for which arithmetic wraps depend on the width.", "anchors": ["src/row/same_stage_vec.rs: SameStageVec::get, len, pop, last, pre_multiply, extend_range_transposed", "src/row/borrowed.rs: Row::mul_unchecked, inv_into_buf, inv", "src/block.rs: AnnotBlock::with_default_annots, extend_range, split", "src/mask.rs: Mask::as_row"]}
{"id": "C97", "title": "Laws of masks", "statement": "The operations on masks fit together: is_subset_of is a partial order with the empty mask on top; combine is commutative, associative (failing together whichever pair is combined first), idempotent, leaves a mask combined with the empty mask alone, and gives the largest mask which is a subset of both, which exists as soon as any mask is a subset of both; is_compatible_with is symmetric; a mask matches a row exactly when the full mask of the row is a subset of it, and exactly when the two are compatible; multiplying by rows on either side is an action of the rows (product by product, rounds does nothing, the two sides do not disturb each other), and keeps subset, compatibility and combination; fix_bells of two lists of bells is the combination of the two masks.", "quantifier": "all masks in which no bell is given twice, all rows of the same stage, all lists of bells to fix", "why_tests_cant": "These are equations between results of several calls for all masks and rows, including those where the calls fail or panic; a test compares a few.", "anchors": ["src/mask.rs: Mask::combine, is_compatible_with, is_subset_of, matches, full_row, empty, fix_bells, as_row, Mul<&Row> for &Mask, Mul<&Mask> for &Row"]}
{"id": "C98", "title": "Equality of regexes decides whether two patterns mean the same", "statement": "Two patterns (lists of elements, or texts) are turned into equal regexes exactly when they describe the same sequences of bells; the regex is the shortest pattern with its meaning, and the only one in normal form.", "quantifier": "all lists of elements, all texts, all sequences of bells", "why_tests_cant": "That patterns with the same meaning always give the same regex ranges over all pairs of patterns and, for each pair, all sequences of bells of any length.", "anchors": ["src/music.rs: Regex::from_vec, from_elems, parse, normalise, PartialEq for Regex"]}
{"id": "C99", "title": "Orders, cycles and parities of rows agree", "statement": "Every bell of a row is on a cycle no longer than the row; a power of the row brings a bell home exactly when its cycle length divides the exponent; the closure of a row (and the number of leads in a plain course, for the lead head) is as long as the least common multiple of its cycle lengths and so divides the factorial of the stage; the parity is that of the number of bells less the number of cycles; conjugate rows have the same cycles, renamed, and the same order.", "quantifier": "all rows of all stages, all exponents, all methods whose lead starts at rounds, all choices of one bell per cycle", "why_tests_cant": "There are n! rows of stage n and no bound on the stage; the agreement of four separate algorithms (powers, closures, parities, plain courses) on all of them is not a finite check.", "anchors": ["src/row/borrowed.rs: Row::closure, closure_from_rounds, pow_u, parity, inv, Mul", "src/method/mod.rs: Method::plain_course"]}
{"id": "C100", "title": "Touches put together from leads and calls", "statement": "Extending an empty block by the leads of any lists of changes, one after another, gives the block of all these changes, which comes to the product of the lead heads. Splitting a lead at any index, leaving out as many rows as a bob or single covers, and putting the block of the call there gives the lead of the changes with those of the call in the place of the ones covered; its lead head is the plain one, with the covered changes undone and the call done. Repeating a block which starts at rounds is at rounds at the start of a repetition exactly when the number of repetitions is a multiple of the order of its last row.", "quantifier": "all stages, all lists of legal changes, all indices at which the call fits, all annotations, all numbers of repetitions", "why_tests_cant": "Leads, calls and touches are arbitrary lists of changes of any length on any number of bells; the agreement between gluing blocks of rows and concatenating changes has to hold for all of them.", "anchors": ["src/block.rs: AnnotBlock::extend, split, empty, repeat_iter", "src/call.rs: Call::le_bob, le_single, cover_len, transposition", "src/place_not.rs: PnBlock::to_block_from_rounds"]}
{"id": "C101", "title": "The class of a method depends only on its circle of changes", "statement": "Classifying the lead of a list of legal changes never panics and gives the same class, and the same flags little, differential and jump, when the changes start at any other place of the lead and when they are rung backwards. So two texts of place notation whose changes go round the same circle make methods of the same class and, under the same name, of the same title.", "quantifier": "all stages, all non-empty lists of legal changes, all rotations and reflections of them, all annotations, all iteration orders of the hash sets", "why_tests_cant": "The classifier looks at one lead from one starting row; that its result belongs to the circle of changes has to hold for every method on every number of bells and every starting point.", "anchors": ["src/method/class.rs: FullClass::classify", "src/method/mod.rs: Method::from_place_not_string", "src/place_not.rs: PnBlock::to_block_from_rounds"]}
{"id": "C102", "title": "What the predicates on classes say about the hunt bells", "statement": "For a lead which starts at rounds and has no jump change, hunt_bell_class of its class is the class of the paths of the dominant hunt bells, and nothing exactly when the lead has no hunt bell; is_plain and is_treble_dodging hold exactly when the dominant hunt bells plain hunt or treble dodge; and is_symmetric_hunter holds exactly when the dominant hunt bells follow symmetric paths.", "quantifier": "all stages, all leads starting at rounds without jump changes, all annotations, all iteration orders of the hash sets", "why_tests_cant": "The predicates look only at the name of the class; that this name tells the paths of the hunt bells has to hold for every lead on every number of bells.", "anchors": ["src/method/class.rs: Class::hunt_bell_class", "src/method/class.rs: Class::is_plain", "src/method/class.rs: Class::is_treble_dodging", "src/method/class.rs: Class::is_symmetric_hunter"]}
{"id": "C103", "title": "Each run of at least two bells is counted once", "statement": "For a length of at least two bells, the number of patterns for runs anywhere which a row matches is the number of places where a run of that length starts in it; of the patterns for runs at the front it matches exactly one if it starts with a run and none otherwise, and likewise at the back; the patterns for runs at the front or back count both ends, so a row which is one run is counted twice by them.", "quantifier": "all stages, all rows, all lengths from two bells on", "why_tests_cant": "Counting music this way is right only if no run matches two patterns and no pattern matches two runs, for every row of every stage and every length.", "anchors": ["src/music.rs: Regex::runs_front", "src/music.rs: Regex::runs_back", "src/music.rs: Regex::all_runs", "src/music.rs: Regex::runs", "src/music.rs: Regex::matches"]}
{"id": "C104", "title": "How many rows masks and run patterns match", "statement": "A mask which asks only for bells of its stage, each at most once, matches exactly as many rows as there are orders of the bells it leaves open, and any other mask matches none. Each pattern for a run of len bells at the front or back of a row of s bells matches exactly (s-len)! rows, and each pattern for a run anywhere matches exactly (s-len+1)! rows. Over all s! rows of a stage, taken once each, counting matches with the lists of patterns for runs of len >= 2 bells gives 2(s-len+1)! at the front, the same at the back, 4(s-len+1)! for both ends, and 2(s-len+1)(s-len+1)! with internal runs.", "quantifier": "every mask with at least one place, every stage, every length of a run up to the stage", "why_tests_cant": "the number of rows of a stage is its factorial, so counting them by running the matcher is out of reach after a few bells, and a pattern missed, doubled or matched by a row too many shows only in the total", "anchors": ["src/mask.rs: Mask::matches, unspecified_places", "src/music.rs: Regex::matches, runs_front, runs_back, all_runs, runs_front_or_back, runs"]}
{"id": "C105", "title": "Repeated rows are found within one lead", "statement": "The rows of a buffer multiplied by a row a and the same rows multiplied by a row b have a row in common exactly when the row x with b * x = a is the transposition between two rows of the buffer. A touch made of these rows multiplied by one row after another has no repeated row exactly when the buffer has none and no row which takes one of the multipliers to a later one is such a transposition. The plain course of a method whose lead starts at rounds has no repeated row exactly when the lead has none and no power of the lead head takes one row of the lead to a different one.", "quantifier": "every buffer of rows and every two rows of its stage; every method whose first lead starts at rounds", "why_tests_cant": "whether any of the many pairs of rows in a course coincide depends on the group generated by the lead head, for which there is no bound; a test sees a few methods", "anchors": ["src/row/same_stage_vec.rs: SameStageVec::pre_multiply", "src/row/borrowed.rs: Row::solve_ax_equals_b, Row::solve_xa_equals_b, Row::closure", "src/method/mod.rs: Method::plain_course"]}
{"id": "C106", "title": "How often the loops go round", "statement": "The loops of parity, closure, closure_from_rounds, least_group_containing and plain_course go round a number of times which is known in advance: the number of bells plus the number of bells less the number of cycles, plus one; the least common multiple of the cycle lengths; the size of the group plus one, which is one more than a divisor of the factorial of the stage; and the number of leads of the course. Matching a regex of n elements with a row of m bells asks for at most n + 1 elements and at most m + 1 bells, as its documentation promises; a match asks for exactly n + 1 elements, and for exactly m + 1 bells unless the regex ends with a star. A regex never has more elements than it was made from. Row::is_group multiplies n*n times and inverts n times on a group of n different rows, stops after the first product which is missing otherwise, and does neither for rows of several stages.", "quantifier": "every valid row, every non-empty list of valid rows of one stage, and every method whose lead starts at rounds; every list of regex elements and every valid row", "why_tests_cant": "tests show that a call returned, not that every call returns, nor how long the longest takes", "anchors": ["src/row/borrowed.rs: Row::parity, Row::closure, Row::closure_from_rounds, Row::least_group_containing", "src/method/mod.rs: Method::plain_course", "src/music.rs: Regex::matches, Regex::match_pattern, Regex::run_match", "src/row/borrowed.rs: Row::is_group"]}
{"id": "C107", "title": "Displayed texts are plain and line up", "statement": "Bells, rows, masks, regexes and place notations are displayed (and written for debugging) with printable ASCII characters other than the space only; stages, classes, and the messages of all errors are one line of printable ASCII, whatever text caused the error; the debug texts of buffers and blocks likewise, if those of the annotations are; a generated title adds only such characters to the name. The texts of all rows of one stage have the same length, which is the number of bells exactly when there are at most 33.", "quantifier": "every bell, row, mask, regex, place notation, stage, class, error, buffer, block, and name", "why_tests_cant": "a message which quotes a control character or a row which is one column wider shows only for inputs nobody thought of", "anchors": ["src/bell.rs: Bell::name", "src/row/borrowed.rs: Display, Debug for Row", "src/row/errors.rs: Display", "src/stage.rs: Display, Debug", "src/place_not.rs: Display for PlaceNot, ParseError", "src/mask.rs: Display", "src/music.rs: Display for Regex", "src/method/class.rs: FullClass::fmt_name", "src/method/mod.rs: generate_title", "src/block.rs: Debug"]}
{"id": "C108", "title": "Allocations are reused as documented", "statement": "A buffer of rows made with_capacity(stage, n) holds up to n rows, through any history of pushes, pops, extensions, in-place multiplications and reads, without ever re-allocating its storage; the only requests are for the vectors handed out to the caller. Writing a product, a copy or an inverse into an existing RowBuf asks the allocator for nothing when the row fits into it, and for at most one vector otherwise. A RowAccumulator asks for one vector when it is made and for none afterwards, so a power takes two requests whatever the exponent. is_group asks for at most four vectors for its two buffers, whatever the number of rows. RepeatIter::next_into only asks when it passes from one copy of the block to the next, while next asks once more for every row. from_row_buf asks for nothing. A product, an inverse or rounds which is not written into an existing row takes one request, and a product which is refused takes none. None of this changes any result.", "quantifier": "all rows, buffers, histories of calls, exponents, sets of rows, blocks, numbers of rows taken, and all allocators which give at least the room asked for", "why_tests_cant": "tests do not observe allocations, and a re-allocation changes no result; the promise is about every history and every growth policy", "anchors": ["src/row/same_stage_vec.rs: SameStageVec::with_capacity, from_row_buf, push, pop, extend, split", "src/row/borrowed.rs: Row::mul_into, Row::copy_into, Row::inv_into_buf, Row::is_group, Row::pow_u", "src/row/owned.rs: RowBuf::overwrite_from", "src/row/accumulator.rs: RowAccumulator", "src/block.rs: RepeatIter::next_into"]}
{"id": "C109", "title": "The random order of hash tables does not show in results", "statement": "Running the same program again, with hash sets and maps iterated in another order, gives the same values and the same panics: method classes and titles, answers of group tests, results of searches, the distances of suggestions, and the entries of a library which is written to JSON and read back. All that can differ is which stages a failed group test names, which of equally close methods are suggested last and the order of equally close ones, and the order of groups and methods in the JSON text, whose length stays the same.", "quantifier": "every pair of iteration orders of every hash set and map, every program over the API (in the abstract, on machine words, in every build, with caught panics, with unsafe calls), every collection of rows, every library, title and number of suggestions", "why_tests_cant": "the order of a hash table is random and differs between runs; a test sees one order per run", "anchors": ["src/row/borrowed.rs: Row::is_group", "src/method/class.rs: sub_classify_treble_dodging, FullClass::classify", "src/method_lib/mod.rs: MethodLib::generate_suggestions, get_by_title, to_json, from_json", "src/method_lib/lib_serde.rs: MethodLibSerde"]}
{"id": "C110", "title": "Characters without a meaning do not matter", "statement": "Texts may be written with other characters between the meaningful ones, as the documentation promises: a character which is not the name of a bell can be put anywhere into the text of a row (and, if it is no line feed and there is a line to put it in, into the text of a buffer of rows or of a block) without changing the result; the same holds for masks and regexes with characters that are neither bell names nor wildcards (nor a star), where the wildcards can moreover be exchanged for each other; the same holds for the text of a single change unless it is one of the three texts for a cross. Texts of place notation which differ only in ignored characters, in the choice of the cross or delimiter character, or in delimiters that are not needed (at an end, next to a cross, a comma or another delimiter, or after a plus) give the same changes or the same error apart from its position, and the same methods.", "quantifier": "all texts, all stages, all characters and all positions at which they are inserted; for place notation the whole equivalence relation generated by these steps", "why_tests_cant": "tests compare a few ways of writing a few methods; the equivalence relates infinitely many texts, errors included", "anchors": ["src/row/owned.rs: RowBuf::parse, RowBuf::parse_with_stage", "src/row/same_stage_vec.rs: SameStageVec::parse", "src/block.rs: Block::parse", "src/mask.rs: Mask::parse", "src/music.rs: Regex::parse", "src/place_not.rs: PlaceNot::parse, PnBlock::parse", "src/method/mod.rs: Method::from_place_not_string"]}
{"id": "C111", "title": "Cover bells do not change what rows do", "statement": "Extending rows to a higher stage (the new bells ring behind in their own places) commutes with everything that is computed from them: extending in steps is the same as extending at once; products, inverses, powers and solutions of row equations of extended rows are the extended results; extended rows are equal only if the rows are; whether a row is rounds, its effective stage, its parity and the places of its bells do not change; closures, products of sets and least groups of extended rows are the extended ones in the same order; and extended rows form a group exactly when the rows do.", "quantifier": "all rows and sets of rows of any stage, all higher stages, all exponents", "why_tests_cant": "tests extend a few rows; the claim relates every operation on every row to the operation at every higher stage", "anchors": ["src/row/owned.rs: RowBuf::extend_to_stage", "src/row/borrowed.rs: Row::mul_result, Row::inv, Row::pow_i, Row::solve_ax_equals_b, Row::solve_xa_equals_b, Row::effective_stage, Row::parity, Row::is_rounds, Row::closure, Row::closure_from_rounds, Row::multi_cartesian_product, Row::least_group_containing, Row::is_group"]}
{"id": "C112", "title": "Each call panics exactly when its arguments are bad in a listed way", "statement": "Take any program over the safe API which is careful (C68) and does not use AnnotBlock::extend_range, stop it anywhere, and make any further call. The call panics exactly when: a stage of zero bells is asked for; rows or masks of different stages are multiplied with *, or a row is shortened by extend_to_stage; a swap, an index, a label or a fixed bell lies outside the row, buffer, lead or mask; a range does not lie within the rows; an empty text is parsed as rows; a block is made from no rows; an empty mask is combined; a row times a mask has a bell outside the row; a method is named on a lead which is empty, does not start at rounds, jumps where the class depends on it, or has more bells than stage names; a row of the course of an empty lead is asked for. No other call panics, in any state. So a program panics exactly when it gets to such a call.", "quantifier": "all programs over the modelled API (careful, without extend_range), all states they reach and all next calls with all arguments", "why_tests_cant": "there are infinitely many programs and states; tests can only try some bad arguments and cannot show that a call never panics", "anchors": ["src/row/borrowed.rs: Row", "src/row/owned.rs: RowBuf", "src/row/same_stage_vec.rs: SameStageVec", "src/block.rs: AnnotBlock", "src/place_not.rs: PlaceNot, PnBlock", "src/mask.rs: Mask", "src/method/mod.rs: Method", "src/call.rs: Call", "src/method_lib/mod.rs: MethodLib"]}
{"id": "C113", "title": "A method rung upside down has the same class", "statement": "Every legal change has exactly one change upside down: the one which makes the same places counted from the back. Ringing it is ringing the original with bells and places both counted from the back. If all changes of a lead are turned upside down, every row of the lead is turned upside down, and the new lead is classified without a panic exactly like the old one: the same class and the same Little, Differential and Jump flags. So two texts of place notation which are each other upside down make methods of the same class and, under the same name, of the same title.", "quantifier": "all stages, all non-empty lists of legal changes, all annotations, all orders in which the hash sets are iterated over, all texts and names", "why_tests_cant": "the class is found from minimum places, paths of hunt bells, cross sections and hash sets; a test can compare a few methods, but the symmetry must hold for every lead", "anchors": ["src/method/class.rs: FullClass, Class", "src/method/mod.rs: Method", "src/place_not.rs: PlaceNot, PnBlock"]}
{"id": "C114", "title": "Turning a method round, backwards or upside down keeps the length and the truth of its plain course", "statement": "If the changes of two leads go round the same circle (one starts at another change, perhaps going backwards), the plain course of one consists of the rows of the other multiplied by one of its rows. If the changes of two leads are each other upside down, so are the rows of their plain courses, one by one. In both cases both plain courses come to an end, they are equally long, and one has a repeated row exactly when the other has.", "quantifier": "all stages, all non-empty lists of legal changes and all their rotations, reversals and upside-down versions, all method names and classes", "why_tests_cant": "the plain course is found by repeating the lead until rounds comes up; how often depends on the lead, so no finite set of methods shows that the variants agree", "anchors": ["src/method/mod.rs: Method", "src/block.rs: AnnotBlock", "src/place_not.rs: PlaceNot, PnBlock"]}
{"id": "C115", "title": "Patterns read backwards and with other bells", "statement": "A regex matches a row exactly when the regex with its elements (or its text) in reverse order matches the row in reverse order, and then the matched places are the same counted from the back. Replacing each bell of the regex by its image under a row x, and the row by x times the row, changes neither whether it matches nor the matched places. Neither changes the number of matching rows that is computed. A row has as many runs of a given length at the front as its reverse has at the back, and as many anywhere; exchanging the bells first for last does not change these numbers.", "quantifier": "every list of regex elements, every text, every valid row, every relabelling row of the same stage, every word size and stage, and every run length above zero", "why_tests_cant": "music is scored by these patterns on thousands of rows and under many course heads; tests compare a few rows with a few patterns, not all patterns under all relabellings", "anchors": ["src/music.rs: Regex::matches, Regex::match_pattern, Regex::num_matching_rows, Regex::runs_front, Regex::runs_back, Regex::all_runs", "src/row/borrowed.rs: Row"]}
{"id": "C116", "title": "Operators, conversions and second names do what the named functions do", "statement": "Bell::index and Bell::from_index are inverse to each other, += and -= on a bell undo each other, and -= panics exactly when it would go below the treble. row[i] is the bell in place i and panics exactly beyond the last place; !row is the inverse permutation; owned, Rc and Arc copies equal the row, and a RowBuf equals a Row exactly when they have the same bells in the same places; rebuilding a row from its bells, or from its text on at most 33 bells, gives the row back. permute multiplies every row of a buffer or block, keeping the annotations, or refuses another stage and changes nothing; repeat_iter yields the block repeated for ever from the given row; PnBlock::from_iter accepts exactly the non-empty sequences of one stage.", "quantifier": "all bells and numbers, all valid rows and texts, all pairs of rows, all buffers, blocks, start rows and item numbers, all sequences of place notation", "why_tests_cant": "The operators and aliases are thin, and an exchanged argument or a missing bounds check shows only on particular rows.", "anchors": ["src/bell.rs: Bell::index, Bell::from_index, AddAssign, SubAssign", "src/row/borrowed.rs: Row::slice, Index, Not, Row::to_rc, Row::to_arc", "src/row/owned.rs: RowBuf::into_bell_vec, ToOwned, FromStr, PartialEq", "src/row/same_stage_vec.rs: SameStageVec::permute", "src/block.rs: AnnotBlock::permute, AnnotBlock::repeat_iter", "src/place_not.rs: PnBlock::from_iter"]}
{"id": "C117", "title": "Equality of changes, blocks of changes, masks and regexes tells whether they mean the same", "statement": "Two place notations from the API are == exactly when they have the same stage and transposition, exactly when they do the same to every row, and exactly when they do the same to any single row of the stage; two blocks of place notation are == exactly when they ring the same rows from any one start. Masks which some row can satisfy match the same rows exactly when they are == or when each leaves at most one place open and both match the same row. Regexes are == exactly when their patterns describe the same lists of bells. Values which are == feed a hasher alike, others feed it differently, and no value's feed begins with that of another.", "quantifier": "all pairs of legal place notations, blocks, well-formed masks and regex patterns; all rows", "why_tests_cant": "Hash sets and maps of these values silently lose or merge entries if == or Hash disagree with the meaning; tests compare a few pairs.", "anchors": ["src/place_not.rs: PlaceNot, PnBlock", "src/mask.rs: Mask", "src/music.rs: Regex, RegexElem"]}
{"id": "C118", "title": "Renaming the bells does not change what rows do", "statement": "Take any row x and rename every bell and every place i to x[i] in rows of its stage (which is to form x * r * !x). Then products, inverses, powers and solutions of row equations of renamed rows are the renamed results; renamed rows are equal only if the rows are; a renamed row is rounds exactly when the row is, has the same parity, and its bells in their own places are those of the row, renamed; closures, products of sets and least groups of renamed rows are the renamed ones in the same order; and renamed rows form a group exactly when the rows do.", "quantifier": "all rows x, all rows and sets of rows of the same stage, all stages, all exponents", "why_tests_cant": "A test renames a few rows in a few ways; the claim is about every renaming of every row, set and group.", "anchors": ["src/row/borrowed.rs: Row::inv, Row::pow_i, Row::closure, Row::closure_from_rounds, Row::multi_cartesian_product, Row::least_group_containing, Row::is_group, Row::parity, Row::fixed_bells", "src/row/borrowed.rs: Row::solve_ax_equals_b, Row::solve_xa_equals_b"]}
{"id": "C119", "title": "A method rung with cover bells is the method with the cover bells behind", "statement": "Every legal change has exactly one legal change with cover bells up to any higher stage: the one which makes the same places and also every place above the old stage. It does to a row with cover bells (C111) what the change does to the row. If all changes of a lead get cover bells, the rows of the lead and of its plain course are the old ones with cover bells, one by one; the plain course has the same number of leads, and a repeated row exactly when the old one has.", "quantifier": "all legal changes and non-empty lists of legal changes on any stage, all higher stages, all rows", "why_tests_cant": "A test adds a cover bell to a few methods; the claim is about all lists of changes, and about whole plain courses.", "anchors": ["src/place_not.rs: PlaceNot::permute_new, PlaceNot::transposition, PnBlock::to_block_from_rounds", "src/method/mod.rs: Method::plain_course", "src/row/owned.rs: RowBuf::extend_to_stage"]}
{"id": "C120", "title": "How many changes a stage has, and that changes reach every row", "statement": "On every stage the number of legal changes is the Fibonacci number of that stage (2 on two bells, 3 on three, 5 on four, 13 on six, 34 on eight), and exactly so many rows have a place notation from any given row. The place notation between two rows is the same in both directions. Between any two rows of the same stage there is a non-empty list of legal changes which, expanded from the first row, ends with the second.", "quantifier": "all stages, all rows, all pairs of rows of a stage", "why_tests_cant": "A test enumerates the changes of a few small stages; the claims are about all stages and all pairs of rows.", "anchors": ["src/place_not.rs: PlaceNot::pn_between, PlaceNot::permute_new, PnBlock::to_rows"]}
{"id": "C121", "title": "How many rows of a group, of a stage and of a touch are even", "statement": "The rows of a group are either all even, or exactly half of them are; the even ones are again a group. Exactly half of the rows of a stage of at least two bells are even. If every change of a block of place notation swaps an even number of pairs of bells, then no more than half of the rows of the stage can be rung before one of them is repeated.", "quantifier": "all groups of rows, all stages of at least two bells, all blocks of legal changes and all start rows", "why_tests_cant": "A test counts the parities of a few groups and touches; the claims are about every group and every block.", "anchors": ["src/row/borrowed.rs: Row::parity, Row::is_group", "src/place_not.rs: PnBlock::to_rows"]}
{"id": "C122", "title": "What the text of two patterns put together matches", "statement": "Parsing the texts of two patterns one after the other gives a regex which matches a row exactly when the row can be cut so that the first part is as the first pattern says and the rest as the second says. With a star on either side, a pattern matches exactly the rows which have a stretch as it says. Texts which parse to the same regex can stand for each other inside a longer text without changing the regex.", "quantifier": "all texts, all rows", "why_tests_cant": "A test tries a few patterns on a few rows; that normalising across the seam never changes the meaning is a claim about all pairs of texts.", "anchors": ["src/music.rs: Regex::parse, Regex::from_vec, Regex::matches"]}
{"id": "C123", "title": "The paths of the bells", "statement": "At every row each place is on the path of exactly one bell, and the paths of all bells determine a buffer of rows. In the rows rung from a block of place notation, a bell in a place the change makes stays there, and every other bell moves by exactly one place, to a place which the change does not make. In the plain course of a method, a bell which starts a lead in some place rings during that lead the path which the bell of that place has in the first lead.", "quantifier": "all buffers of valid rows, all non-empty lists of legal changes of one stage, all starting rows, all methods whose lead starts from rounds, all leads and rows of the plain course", "why_tests_cant": "A test looks at the paths in a few methods; that no bell ever jumps and that place bells repeat lead after lead are claims about all notations and methods.", "anchors": ["src/row/same_stage_vec.rs: SameStageVec::path_of", "src/block.rs: AnnotBlock::path_of", "src/place_not.rs: PnBlock::to_block, PnBlock::to_rows", "src/method/mod.rs: Method::plain_course"]}
{"id": "C124", "title": "Symmetrical notation gives symmetrical rows and paths", "statement": "If the changes of a block read the same backwards, then the rows rung from any row read the same backwards after one exchange of bells, and the path of each bell backwards is the path of its partner. The plain course of a method given by a text of the form \"a,b\" has this symmetry all round: reading it backwards from the row where the first section ends gives the course with the bells exchanged.", "quantifier": "all lists of legal changes of one stage which read the same backwards, all starting rows; all texts without comma or plus which parse, all methods made from them", "why_tests_cant": "A test looks at a few methods; that the comma notation always gives a symmetrical course is a claim about all texts.", "anchors": ["src/place_not.rs: PnBlock::parse, PnBlock::to_rows, PnBlock::to_block_from_rounds", "src/method/mod.rs: Method::plain_course", "src/block.rs: AnnotBlock::path_of"]}
{"id": "C125", "title": "Room asked for in advance", "statement": "SameStageVec::with_capacity gives an empty buffer with room for the rows asked for, in every build, as long as this room is at most isize::MAX bytes; otherwise it panics with overflow checks, and without them the wrapped number of bells decides (so that a buffer without the room may be returned). The functions which make patterns for runs return the same patterns in every build unless the room they ask for in advance is too large, when they panic; that room is enough exactly for runs of at least four bells.", "quantifier": "all word widths, both kinds of build, all sizes of elements, all stages and capacities, all lengths of runs", "why_tests_cant": "The borders depend on the product of two numbers of the caller, at sizes which no test can allocate.", "anchors": ["src/row/same_stage_vec.rs: SameStageVec::with_capacity", "src/music.rs: Regex::runs_front, runs_back, all_runs, runs_front_or_back, runs"]}
{"id": "C126", "title": "Which bells products, inverses, groups and changes move", "statement": "The effective stage of a product of two rows of one stage is at most the larger of their effective stages, and exactly that if these differ; bells which both rows fix are fixed by the product. The inverse of a row has the same effective stage and the same fixed bells, and no power of the row (also to a negative exponent) has a larger effective stage. No row of the least group containing some rows has a larger effective stage than the largest among them. A block rung with changes which all make every place from some place on has an effective stage of at least that of the starting row, and at most the larger of the two.", "quantifier": "all rows, sets of rows, exponents and lists of changes of every stage", "why_tests_cant": "concerns every pair of rows, every group and every list of changes; tests can only compute effective stages of a few rows", "anchors": ["src/row/borrowed.rs: Row::effective_stage, Row::fixed_bells, Row::inv, Row::pow_i, Row::least_group_containing", "src/block.rs: Block::effective_stage", "src/place_not.rs: PnBlock::to_block"]}
{"id": "C127", "title": "One text read as a mask and as a regex", "statement": "A text without '*' gives, read as a regex, the regex of the mask which the text without its capital 'X's gives; so without '*' and 'X' the mask and the regex of a text match the same rows, whereas 'X' is an open place of a mask and is ignored in a regex. A mask and the regex made from it are displayed alike, and for bells with one-char names the text of the mask is read back as that regex. A text which is read as a row and has none of the chars 'x', 'X', '.' and '*' gives the mask of that row alone, and a regex which only that row matches.", "quantifier": "all texts, masks and rows", "why_tests_cant": "Two parsers written apart have to agree on every text; tests compare a few strings.", "anchors": ["src/mask.rs: Mask::parse, Mask::matches, impl Display for Mask, impl From<Mask> for Regex", "src/music.rs: Regex::parse, Regex::matches, impl Display for Regex"]}
{"id": "C128", "title": "Between which rows there is a place notation", "statement": "PlaceNot::pn_between finds a place notation between two rows of a stage exactly when no bell moves by more than one place. What it finds depends only on the places which exchange: multiplying both rows by one row on the left changes nothing, so that one may start from rounds. Every list of at least two rows in which no bell jumps is therefore rung by exactly one list of changes.", "quantifier": "all pairs and lists of rows of every stage", "why_tests_cant": "A bound on how far bells move has to decide for every pair of rows; tests try a few pairs.", "anchors": ["src/place_not.rs: PlaceNot::pn_between, PnBlock::to_rows, PnBlock::from_vec", "src/row/borrowed.rs: Row::mul, Row::inv"]}
{"id": "C129", "title": "When the rows which a mask matches are a group", "statement": "The rows which a mask matches, if any, pass Row::is_group exactly when the mask asks for bells at home only. In general they are exactly the products of any one of them with the rows matching Mask::fix_bells of the places asked for (multiplied on the right), and of the rows matching Mask::fix_bells of the bells asked for (multiplied on the left) with it.", "quantifier": "all masks and all rows", "why_tests_cant": "A statement about all rows which a mask matches, whose number grows with the factorial; tests compare a few masks with a few rows.", "anchors": ["src/mask.rs: Mask::matches, Mask::fix_bells", "src/row/borrowed.rs: Row::is_group, Row::mul"]}
{"id": "C130", "title": "Rows sort as their texts only up to nine bells", "statement": "For rows of up to nine bells, comparing two rows gives the same order as comparing the texts they print, character by character. For every stage of ten bells or more this fails: rounds is the first row, but the text of some other row of the stage comes before its text.", "quantifier": "all rows, of all stages", "why_tests_cant": "A statement about all pairs of rows and every stage; tests compare a few rows of small stages, where the two orders agree.", "anchors": ["src/row/borrowed.rs: Row (Ord, Display)", "src/bell.rs: Bell::name, BELL_NAMES"]}
{"id": "C131", "title": "Plain hunting", "statement": "On every number n of bells, the method whose lead is the two changes of plain hunting (all pairs from the front, then all pairs from the second place) takes every bell out to the back one place at a time, two rows there, in to the front, two rows there, for ever. Its plain course has n leads of two rows; after n changes the bells are in reverse order; no row of it comes twice if and only if there are at least three bells. On at least two bells the method is classified as a principle, not differential, and its title is its name and stage.", "quantifier": "all stages, all rows of the endless plain course, all bells", "why_tests_cant": "Quantifies over every stage and every row; tests ring a few methods on particular stages.", "anchors": ["src/place_not.rs: PnBlock::to_block_from_rounds, PlaceNot", "src/method/mod.rs: Method::plain_course, row_in_plain_course, from_place_not_string", "src/block.rs: AnnotBlock::path_of", "src/method/class.rs: FullClass::classify"]}
{"id": "C132", "title": "Plain Bob", "statement": "On every number n of bells from two on, the method whose lead is plain hunting with seconds made at the lead end (Plain Bob) has a plain course of n-1 leads of 2n rows in which the treble hunts out and in in every lead; no row of it comes twice if and only if there are at least four bells. From four bells on it is classified as a Bob method which is neither little nor differential nor a jump method, and its title is its name, Bob, and its stage.", "quantifier": "all stages from two bells on, all rows of the plain course", "why_tests_cant": "Quantifies over every stage; the unit tests ring and classify methods on a few stages.", "anchors": ["src/place_not.rs: PnBlock::to_block_from_rounds", "src/method/mod.rs: Method::plain_course, from_place_not_string, generate_title", "src/block.rs: AnnotBlock::path_of", "src/method/class.rs: FullClass::classify"]}
{"id": "C133", "title": "Working bells and the length of the plain course", "statement": "For a method whose lead starts at rounds and is not empty: it is classified as not differential exactly when every working bell (a bell which the lead does not bring back to its place) comes home for the first time at the end of the plain course. Then the number of leads of the plain course divides the number of working bells, the plain course has no more leads than there are bells, and a principle on a prime number of bells has exactly as many leads as bells.", "quantifier": "all methods, stages and numbers of leads, jumping leads included, every iteration order of the hash set", "why_tests_cant": "Relates the classification to the plain course for every method; a unit test sees a few methods.", "anchors": ["src/method/class.rs: FullClass::classify", "src/method/mod.rs: Method::plain_course", "src/row/borrowed.rs: Row::fixed_bells"]}
{"id": "C134", "title": "Which bells do the same work", "statement": "In the plain course of a method whose lead starts at rounds and is not empty, the path of bell b is the path of bell c begun k leads later exactly when k steps along the lead head go from b to c; so two bells do the same work, some leads apart, exactly when they are on one cycle of the lead head. A bell does the same in every lead exactly when it is a hunt bell.", "quantifier": "all methods, all pairs of bells, all numbers of leads", "why_tests_cant": "Ranges over every method and every pair of bells; a unit test can only compare the paths of a few methods.", "anchors": ["src/method/mod.rs: Method::plain_course, lead_head", "src/block.rs: AnnotBlock::path_of"]}
{"id": "C135", "title": "In Bob and Place methods the treble plain hunts", "statement": "A lead which starts at rounds, is not empty and has no jump change is classified as that of a Bob or a Place method exactly when some hunt bell hunts out and back between two places with two rows at each end, once in the lead; or when the lead has four rows and some hunt bell dodges in two places throughout it. If such a method is not little, the lead has two rows for each bell.", "quantifier": "all leads of every stage and length, all iteration orders of the hash set", "why_tests_cant": "Ranges over every lead; a unit test can only classify a few methods.", "anchors": ["src/method/class.rs: FullClass::classify, Class"]}
{"id": "C136", "title": "The number of rows of a lead", "statement": "In a lead which starts at rounds, is not empty and has no jump change, every hunt bell moves an even number of times. So the leads of Bob, Place, Surprise, Delight and Treble Bob methods have an even number of rows. If one of these or a Treble Place method is not little, the number of rows is a multiple of the number of bells; in Surprise, Delight and Treble Bob methods it is at least three times that number, and the number of bells is even.", "quantifier": "all leads of every stage and length, all iteration orders of the hash set", "why_tests_cant": "Ranges over every lead; a unit test can only classify a few methods.", "anchors": ["src/method/class.rs: FullClass::classify, Class"]}
{"id": "C137", "title": "Where the repeated rows of a plain course can be", "statement": "The plain course of a method whose lead starts at rounds has no repeated row exactly when no power of the lead head takes a row of the lead to another row of it in which every hunt bell is in the same place. If a hunt bell plain hunts once in the lead, it is enough to look at the pairs of rows which are mirror images in its path, one pair for each row of half a lead. Likewise a touch made of one lead multiplied by several rows, all of which have a given bell in its own place, has no repeated row exactly when the lead has none and the row which takes one multiplier to a later one never takes one row of the lead to another with this bell in the same place.", "quantifier": "all methods whose lead starts at rounds", "why_tests_cant": "Ranges over every method; a unit test can only look for repeated rows in a few courses.", "anchors": ["src/method/mod.rs: Method::plain_course, lead_head", "src/row/borrowed.rs: Row::solve_xa_equals_b, Row::closure"]}
{"id": "C138", "title": "Plain courses which are extents", "statement": "A block on s bells without a repeated row has at most s! rows, and exactly s! if and only if it contains every row of the stage. If the plain course of a method whose lead starts at rounds is such an extent, every hunt bell is in every place equally often in each lead: the number of leads times this number is (s-1)!. So a method with a hunt bell and without jump changes whose plain course is an extent is not classified as little and not as an Alliance method.", "quantifier": "all blocks, all methods whose lead starts at rounds, all iteration orders of the hash set", "why_tests_cant": "Ranges over every method and block; a unit test can only look at a few courses.", "anchors": ["src/method/mod.rs: Method::plain_course", "src/block.rs: AnnotBlock::path_of", "src/method/class.rs: FullClass::classify"]}
{"id": "C139", "title": "Which bells a call affects", "statement": "Two blocks of equally many changes take a bell along the same path exactly when, wherever the bell is, the two changes rung there take it to the same place. If a call takes the place of the last changes of a lead, a bell ends the called lead where it ends the plain lead exactly when the transpositions of the call and of the changes covered take it from its place to the same place. On four bells or more, a bob written 14 instead of 12 affects the bells in the second, third and fourth places and no others, and a single written 1234 those in the third and fourth. So in a touch of leads ending in 12, 14 or 1234, a bell's path is that of as many plain leads exactly when at every bob it is in the first place or above the fourth and at every single in the first two places or above the fourth.", "quantifier": "all stages, all lists of legal changes, all calls, all touches, all bells", "why_tests_cant": "Ranges over every stage, every method body and every sequence of calls; unit tests can only look at single touches.", "anchors": ["src/call.rs: Call::le_bob, Call::transposition", "src/place_not.rs: PlaceNot::parse, PlaceNot::transposition, PnBlock::to_block_from_rounds", "src/block.rs: AnnotBlock::full_path_of, AnnotBlock::leftover_row"]}
{"id": "C140", "title": "Music counted piece by piece", "statement": "When a buffer of rows is multiplied by a row, as many of its rows match a mask as rows of the buffer before it match the mask multiplied by the inverse of that row; a regex whose bells are renamed by the row matches as many rows after the multiplication as the regex did before. So extending a block by another adds the number of rows of the other which match the mask multiplied by the inverse of the transposition joining the two; and the rows of a touch, or of the plain course of a method, which match a mask can be counted in the rows of one lead, once for each lead head. A block without a repeated row has at most as many rows which match a mask as there are orders of the bells the mask leaves open, and exactly so many if it is an extent.", "quantifier": "all buffers, rows, masks, regexes, blocks, touches and methods of all stages", "why_tests_cant": "Ranges over every composition and every mask; a unit test can only count the music of a few touches.", "anchors": ["src/mask.rs: Mask::matches, Mul<&Mask> for &Row", "src/music.rs: Regex::matches", "src/row/same_stage_vec.rs: SameStageVec::pre_multiply", "src/block.rs: AnnotBlock::extend", "src/method/mod.rs: Method::plain_course"]}
{"id": "C141", "title": "Touches of Plain Bob", "statement": "A touch of Plain Bob on three or more bells, with any changes at the lead ends at which the treble stays in front, has the treble in front in the first and the last row of every lead and in no other row, and has a repeated row only if one of these is repeated. On n bells, n at least four, Plain Bob with a bob (14) at every lead end comes round after n-3 leads without a repeated row, and at every lead head the bells 1, 2 and 3 are in their own places (and no other bell, except on four bells). With a single (1234) at every lead end it comes round after the least common multiple of 2 and n-3 leads, without a repeated row exactly when n is at least six.", "quantifier": "all stages, all touches of Plain Bob", "why_tests_cant": "Ranges over every stage and every composition; a unit test can only ring a few touches.", "anchors": ["src/place_not.rs: PlaceNot::parse, PnBlock::to_block_from_rounds", "src/method/mod.rs: Method::plain_course, Method::lead_head"]}
{"id": "C142", "title": "Touches of Plain Bob without odd calls", "statement": "On n bells, where n leaves 1 or 2 when divided by 4, a touch of Plain Bob in which every change at a lead end keeps the treble in front and swaps an even number of pairs has at most half of the n! rows, unless it repeats one. On 6, 10, 14, ... bells the plain lead end 12 and the bob 14 are such changes; so a touch of plain leads, bobs 14 and singles 1234 with more than half of the rows, none of them repeated, has a single.", "quantifier": "all such stages, all touches", "why_tests_cant": "Ranges over every stage and every composition; no test can try all touches even on six bells.", "anchors": ["src/place_not.rs: PlaceNot::parse, PnBlock::to_block_from_rounds", "src/row/borrowed.rs: Row::parity"]}
{"id": "C143", "title": "Grandsire", "statement": "On every stage of at least three bells the changes of Grandsire (plain hunting with third place made in the first change) can be written as place notation, up to 33 bells, and parsed back. The plain course has n-2 leads of 2n rows and no row twice; the treble and the 2 plain hunt throughout and no other bell is back in its place at a lead head before the course ends. On at least five bells the library classifies it as a Bob method, neither little nor differential, with exactly these two hunt bells; so its generated title contains the word Bob, and the title without it has to be stored, as the documentation says.", "quantifier": "all stages, all names, all texts which parse to these changes, all hash iteration orders", "why_tests_cant": "Ranges over every stage; a test tries a few.", "anchors": ["src/place_not.rs: PnBlock::parse, PnBlock::to_block_from_rounds", "src/method/mod.rs: Method::from_place_not_string, Method::plain_course, Method::lead_head, generate_title", "src/method/class.rs: FullClass::classify"]}
{"id": "C144", "title": "As few swaps as possible", "statement": "Row::parity puts the bells into rounds with as few swaps of two bells as anybody could: the number of bells less the number of cycles of the row, so fewer than the number of bells. Every other sequence of swaps which ends in rounds is at least as long and has the same parity. The test by which the classifier recognises symmetric paths compares at most as many pairs of places as the square of the length of the path, as its documentation says.", "quantifier": "all rows, all sequences of swaps, all paths", "why_tests_cant": "That no shorter sequence of swaps exists is a statement about all of them.", "anchors": ["src/row/borrowed.rs: Row::parity", "src/method/class.rs: is_palindromic"]}
{"id": "C145", "title": "Stedman", "statement": "On every odd stage of at least five bells the twelve changes of Stedman can be written as place notation, up to 33 bells, and parsed back. The plain course has n leads of twelve rows and no row twice; no bell is back in its place at a lead head before the course ends, and every bell is throughout where the treble is some number of leads later. The library classifies it as a principle which is not differential, so that its title is the name and the stage.", "quantifier": "all odd stages from five on, all names, all texts which parse to these changes, all hash iteration orders", "why_tests_cant": "Ranges over every odd stage; a test tries a few.", "anchors": ["src/place_not.rs: PnBlock::parse, PnBlock::to_block_from_rounds", "src/method/mod.rs: Method::from_place_not_string, Method::plain_course, Method::lead_head, generate_title", "src/method/class.rs: FullClass::classify"]}
{"id": "C146", "title": "Round touches of plain and called leads", "statement": "Take a touch of plain leads and called leads, of the same length, which comes round and repeats no row, and in which a plain lead from any lead head goes to a lead head of the touch. If the lead head of the called lead times the inverse of that of the plain lead has odd order, then the number of leads is an odd multiple of the number of leads in the plain course. So no touch of Grandsire with plain leads and bobs only is an extent, on any odd number of bells from five on: one which comes round without repeating a row has fewer rows than there are.", "quantifier": "all stages, all legal plain and called leads of the same length, all sequences of calls; all odd stages from five on and all sequences of calls for Grandsire", "why_tests_cant": "Ranges over every sequence of calls: for Grandsire Triples alone there are 2^360 candidates for an extent.", "anchors": ["src/place_not.rs: PnBlock::to_block_from_rounds", "src/block.rs: Block::leftover_row, Block::rows", "src/row/borrowed.rs: Row::closure, Row::inv, Mul"]}
{"id": "C147", "title": "Extents of Plain Bob need singles", "statement": "Take a touch of Plain Bob on an even number of bells, six or more, in which each lead ends with a plain lead end, a bob or a single. If it comes round and has every row of the stage exactly once, then at least one lead ends with a single.", "quantifier": "all even stages from six on, all sequences of calls", "why_tests_cant": "Ranges over every sequence of calls on every even stage: 2^60 sequences of plain leads and bobs for Minor, 2^2520 for Major.", "anchors": ["src/place_not.rs: PnBlock::to_block_from_rounds, PlaceNot::parse", "src/block.rs: Block::leftover_row, Block::rows"]}
{"id": "C148", "title": "Parts: products of a group with other rows", "statement": "multi_cartesian_product of a group of part heads and some rows gives as many rows as there are pairs. They are all different exactly when the rows are, and no row of the group takes one of them to another, as solve_xa_equals_b finds it. Multiplying them by a part head gives the same rows again. If they are all different they are at most as many as the orders of the bells, and if they are as many they are all rows of the stage. A group within a greater one divides it into parts: for some rows of the greater group, the products of the smaller group with them are the greater group, each row once.", "quantifier": "all stages, all sets of rows which pass is_group, all lists of rows of the same stage, all pairs of groups one within the other", "why_tests_cant": "Ranges over all groups and all lists of rows of all stages.", "anchors": ["src/row/borrowed.rs: Row::multi_cartesian_product, Row::is_group, Row::solve_xa_equals_b"]}
{"id": "C149", "title": "Plain courses are products", "statement": "The rows of the plain course of a method whose lead starts at rounds are, in another order, multi_cartesian_product of closure_from_rounds of the lead head and the rows of the lead; and one power after another they are the rows of the plain course in order. The products of any group which contains the lead head with the rows of the lead are whole plain courses: for some rows of the group, as many as the size of the group divided by the order of the lead head, their products with the rows of the plain course are the same rows, each equally often.", "quantifier": "all methods on all stages whose lead starts at rounds; all sets of rows which pass is_group and contain the lead head", "why_tests_cant": "Ranges over all methods and all groups of all stages.", "anchors": ["src/method/mod.rs: Method::plain_course, Method::lead_head", "src/row/borrowed.rs: Row::closure_from_rounds, Row::multi_cartesian_product, Row::is_group"]}
{"id": "C150", "title": "How many changes it takes from one row to another", "statement": "Between any two rows of a stage there is a block of as many changes as the stage has bells which, rung from the first row, ends with the second. In general no fewer are enough: on three bells or more, no row within fewer changes of rounds is backrounds. In the rows of a block, no bell is ever further from its place at the start than the number of changes rung so far.", "quantifier": "all stages, all pairs of rows, all blocks of place notation", "why_tests_cant": "Ranges over all rows and all lists of changes of all stages.", "anchors": ["src/place_not.rs: PnBlock::from_vec, PnBlock::to_rows, PlaceNot::pn_between", "src/row/borrowed.rs: Row::place_of", "src/row/owned.rs: RowBuf::backrounds"]}
{"id": "C151", "title": "There is an extent on every stage", "statement": "On every stage of two bells or more, and from every row, there is a block of changes which, rung from that row, rings every row of the stage exactly once and comes back to its start. Only one pair of neighbouring bells need be exchanged at each change, as Row::swap does it.", "quantifier": "all stages of two bells or more, all rows to start from", "why_tests_cant": "Ranges over all stages; the blocks have factorially many changes.", "anchors": ["src/place_not.rs: PnBlock::from_vec, PnBlock::to_rows", "src/row/borrowed.rs: Row::swap"]}
{"id": "C152", "title": "Double changes lead to every row of the same parity", "statement": "On five bells or more, two rows of a stage have the same parity, as Row::parity computes it, exactly if there is a block of changes leading from the one to the other at each change of which exactly two pairs of neighbouring bells are exchanged (two Row::swaps of neighbours at places which do not meet). On four bells this fails: 1234 and 1342 are both even, but no number of double changes leads from the one to the other.", "quantifier": "all stages of five bells or more, all pairs of valid rows; for four bells, all sequences of double changes", "why_tests_cant": "Ranges over all stages and pairs of rows; the negative half ranges over all sequences of changes.", "anchors": ["src/place_not.rs: PnBlock::from_vec, PnBlock::to_rows", "src/row/borrowed.rs: Row::swap, Row::parity"]}
{"id": "C153", "title": "How often each bell is in each place", "statement": "In the plain course of a method whose lead starts at rounds, the bells on one cycle of the lead head share the places fairly: if b is on a cycle of k bells and some bell of this cycle is in place p in c rows of one lead, then b is in place p, in the whole course, leads * c / k times. So if all bells work together each is in each place exactly as often as a lead has rows; and if one bell hunts and the others work together, each of the others is in each place as often as the hunt bell is elsewhere in one lead.", "quantifier": "all methods whose lead starts at rounds, all bells, all places", "why_tests_cant": "Ranges over all methods, stages and lead lengths.", "anchors": ["src/method/mod.rs: Method::plain_course, Method::lead_len", "src/block.rs: AnnotBlock::path_of, AnnotBlock::len"]}
{"id": "C154", "title": "Calls come in sets", "statement": "Take a touch of plain and called leads which comes round without repeating a row, and in which a plain lead from any lead head of the touch leads to a lead head of the touch (as in every extent). Let q be the row from the plain lead head to the called one. Then with every called lead the lead whose head is the product of its head with q is called too, so the number of calls is a multiple of the order of q (three for the usual bob).", "quantifier": "all stages, methods, calls and sequences of calls", "why_tests_cant": "Ranges over all touches of all methods.", "anchors": ["src/place_not.rs: PnBlock::to_block_from_rounds", "src/block.rs: AnnotBlock::leftover_row", "src/row/borrowed.rs: Row::mul, Row::inv, Row::closure"]}
{"id": "C155", "title": "How many leads a true touch can have", "statement": "Put together leads of one length, of any number of kinds and in any order. If rounds and the lead head of every lead match a mask (for instance the one which holds the hunt bells at home), then so do all lead heads of the touch and the row it ends at; and if no row is repeated, there are at most as many leads as orders of the bells which the mask leaves open.", "quantifier": "all stages, all lists of leads, all masks", "why_tests_cant": "Ranges over all touches and masks.", "anchors": ["src/place_not.rs: PnBlock::to_block_from_rounds", "src/block.rs: AnnotBlock::leftover_row", "src/mask.rs: Mask::matches, Mask::unspecified_places"]}
{"id": "C156", "title": "What is counted in extents", "statement": "If a block rings every row of its stage k times (k = 1 for an extent), then it has k * s! rows, every bell is in each place k * (s-1)! times, and k times as many of its rows match a mask of the stage as there are orders of the bells the mask leaves open.", "quantifier": "all stages, all blocks which ring every row equally often, all bells, places and masks", "why_tests_cant": "Ranges over all blocks; extents have factorially many rows.", "anchors": ["src/block.rs: AnnotBlock::path_of, AnnotBlock::len", "src/mask.rs: Mask::matches, Mask::unspecified_places"]}
{"id": "C157", "title": "Blocks joined by a set of calls", "statement": "Take blocks of place notation which all end with the same change, each rung from a row to which it comes back, and another change (a call). Let q be the row from the transposition of the plain change to that of the call. If there are as many blocks as the order of q, and the last row of each block before the plain change, times q, is that of the next, then the blocks with the call in place of the plain change, rung after each other, come back to the start of the first and ring exactly the rows of all the blocks.", "quantifier": "all stages, all plain changes and calls, all lists of blocks in such a relation", "why_tests_cant": "Ranges over all methods, calls and blocks; tests show the joining of a few courses.", "anchors": ["src/place_not.rs: PnBlock::to_rows, PlaceNot::transposition", "src/row/borrowed.rs: Row::closure, Row::inv"]}
{"id": "C158", "title": "Round blocks can be started anywhere and inserted in others", "statement": "A block of changes which comes back to the row it is rung from can be started at any of its rows: the changes from there on and then those before come back to that row and ring the same rows in the order from there on. Another block which comes back to one of its rows can be inserted at that row: the longer block comes back to its start and rings the rows of both.", "quantifier": "all stages, all round blocks of changes, all of their rows, all blocks which come back to such a row", "why_tests_cant": "Ranges over all blocks and all rows of them.", "anchors": ["src/place_not.rs: PnBlock::to_rows"]}
{"id": "C159", "title": "A touch without a set of its calls falls into round blocks", "statement": "Take a block of changes which comes back to the row it is rung from, cut into parts ending with the same call, and another (plain) change. Let q be the row from the transposition of the plain change to that of the call. If there are as many parts as the order of q, and the last row of each part before the call, times q, is that of the next, then each part with the plain change in place of the call, rung from its first row, comes back to it and rings the same rows.", "quantifier": "all stages, all plain changes and calls, all round blocks with such a set of calls", "why_tests_cant": "Ranges over all methods, calls and touches.", "anchors": ["src/place_not.rs: PnBlock::to_rows, PlaceNot::transposition", "src/row/borrowed.rs: Row::closure, Row::inv"]}
