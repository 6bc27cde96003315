{
 "C06": {
  "note": "The round trip holds up to 33 bells; beyond that it fails for every row (C06_parse_of_display_large_refuted)."
 },
 "C14": {
  "note": "Here the exponent of pow_i is an unbounded integer; C79 says what the smallest isize does."
 },
 "C19": {
  "note": "For the empty list, which the property excludes, the result is empty and so not a group (C19_least_group_of_nothing_refuted)."
 },
 "C21": {
  "status": "partial",
  "note": "Collision freedom and absence of overflow are proved for stage^stage <= 2^w except the last claim: on 16 bells with 64 bits the final product overflows (C21_sixteen_bells_overflow_refuted)."
 },
 "C28": {
  "status": "partial",
  "note": "The code does not check the stage of the source buffer: for every source of another stage it panics or leaves a buffer which is not a list of valid rows (C28_every_source_of_another_stage_refuted), and extend_transposed_from_within does not check the end of its range (C28_from_within_every_range gives the exact effect). Proved whenever the source has the stage of the buffer."
 },
 "C29": {
  "status": "partial",
  "note": "Proved for every string but the empty one, for which parsing panics (the _refuted theorems, for SameStageVec and AnnotBlock)."
 },
 "C31": {
  "status": "partial",
  "note": "extend is proved in full. extend_range appends the right rows but keeps all annotations of the other block for every proper sub-range (C31_extend_range_sub_range_refuted), and for a range inverted by one it drops the left-over row (C31_extend_range_inverted_refuted). C31_extend_range_panics and C31_extend_range_incompatible cover all other ranges and stages."
 },
 "C44": {
  "status": "partial",
  "note": "False as claimed: the offset of a part is added twice and the range of a word ends one byte late (C44_error_positions_refuted). The partial theorems say exactly which positions are reported, and that they start right when the text has no comma."
 },
 "C46": {
  "note": "row * mask needs the mask to name only bells of the stage; otherwise it panics (C46_products_panic)."
 },
 "C48": {
  "status": "partial",
  "note": "Soundness is proved in full; the converse is proved unless exactly one place of the first mask is open and the second specifies it, where it is false for every such mask (C48_subset_refuted)."
 },
 "C49": {
  "status": "partial",
  "note": "Proved for well-formed masks except those with exactly one open place, for which it is false (C49_as_row_one_open_refuted); parsed masks may be ill formed and then as_row returns an invalid row (C49_as_row_invalid_refuted)."
 },
 "C55": {
  "status": "partial",
  "note": "all_runs of length zero makes regexes whose matching always panics (C55_all_runs_zero_refuted); everything else is proved."
 },
 "C56": {
  "status": "partial",
  "note": "The answer is the number of matching rows for regexes with one glob and at most one wildcard and for full-length ones with at most one wildcard (C56_num_matching_rows_partial). For every normalised regex C56_how_many_rows_match gives the true number and C56_what_is_answered what the code answers; with one glob they agree exactly when there is at most one wildcard or one bell is left for the glob. The claim fails beyond that (C56_wildcards_refuted, C56_other_refuted)."
 },
 "C58": {
  "status": "partial",
  "note": "Proved for non-empty sequences; the empty one gives 1 (C58_run_len_empty_refuted)."
 },
 "C66": {
  "status": "partial",
  "note": "The stage round trip and the behaviour on every input value are proved. Two parts of the English claim are false of the code: deserialising the stage 0 panics (C66_stage_from_bad_input_is_an_error_refuted) and a serialised bell does not come back (C66_bell_round_trip_refuted gives the exact result for every bell). C66_stage_from_any_input_partial covers all other values."
 },
 "C68": {
  "status": "partial",
  "note": "False as claimed: Mask::as_row and SameStageVec::extend(_range)_transposed let safe code build invalid rows and reach an unchecked out-of-bounds read (the _refuted theorems). Proved for every program over the modelled API without these three calls, and for every program which checks their preconditions. A panic ends a program here; programs which catch panics are C77."
 },
 "C77": {
  "status": "partial",
  "note": "False as claimed: a caught panic of AnnotBlock::extend_range takes off the left-over row, one of extend_from_within adds rows without annotations, and one of extend_(range_)transposed from a larger stage leaves part of a row in the buffer (the _refuted theorems; the _leaves theorems say exactly what is left). Proved: rows stay valid in every program which catches panics and avoids (or guards) the three calls excluded in C68, and a panic changes nothing in programs which avoid the two range calls, or in any program for every other call."
 },
 "C78": {
  "status": "partial",
  "note": "False as claimed of builds without overflow checks: a row number whose product with the stage wraps makes get return bells of two rows (C78_exact_integers_refuted). Proved: with overflow checks every program does what it would do with unbounded integers or panics; in every build, programs whose values fit into memory and whose row numbers are below 2^w/stage - 2 do exactly what they would do with unbounded integers."
 },
 "C79": {
  "note": "The exact behaviour is proved for every number. The _refuted theorems show that the wrapped answers are wrong as rows or as counts."
 },
 "C88": {
  "status": "partial",
  "note": "False for a file which is JSON with the fields of a library but cannot be unpacked (unknown class number, no bells, ...): then every call panics and the file is never replaced (C88_bad_cache_refuted). Proved for all other contents which cannot be loaded."
 },
 "C89": {
  "status": "partial",
  "note": "False when overlapping calls are served different texts: the file can become a mixture, from which a later call reads a library nobody served (C89_different_texts_refuted). Proved when all requests that succeed get the same text."
 },
 "C91": {
  "status": "partial",
  "note": "False of size_hint, which is left at its default although len is defined: iter().skip(n).rev() and the len of skip, take and zip panic for every buffer (the _refuted theorems). Proved for next, next_back and len, and for all adapters in the uses which do not ask for size_hint."
 },
 "C92": {
  "status": "partial",
  "note": "False of a clone which panics inside extend or extend_from_within: the rows are added before the annotations are cloned, so the block is left with more rows than annotations (C92_interrupted_extend_refuted, C92_interrupted_extend_from_within_refuted). Everything else is proved."
 },
 "C93": {
  "status": "partial",
  "note": "False of rows with a repeated bell made by Mask::as_row (parity and the closures run for ever, C93_repeated_bells_refuted), of methods made by Method::new from a block that does not start at rounds (C93_method_new_refuted), and of methods made by with_name after extend_range (C93_extend_range_refuted). Proved for every call after every careful program when plain_course gets a sound lead, and for whole programs which do not use both plain_course and Method::new or extend_range."
 },
 "C95": {
  "status": "partial",
  "note": "The file does not compile at this commit; the model makes the two repairs which the types suggest (stage made by Stage::new, field title filled with the title). Reading is proved in full. That methods can be found is false: titles are stored without lower-casing them, so no title with a capital letter is found (C95_methods_are_found_refuted); proved for the library after it was written to JSON and read back."
 },
 "C96": {
  "status": "partial",
  "note": "False: inv_into_buf shortens a longer buffer and overwrites only the places of the bells which the row has, so for a row with a repeated bell it leaves a bell beyond the stage, and a later pre_multiply reads out of bounds. Such a row comes from a wrapped row number in a build without overflow checks (C96_release_builds_refuted), or in every build from extend_transposed with a buffer of another stage (C96_every_build_refuted). Proved for all programs without inv_into_buf and Mask::as_row, and for those which check their arguments. For careful programs whose values and row numbers fit, every build does exactly what the model with unbounded integers does (C96_programs_which_fit_partial)."
 },
 "C102": {
  "status": "partial",
  "note": "False in one direction: a lead whose hunt bells follow a symmetric path with fewer than two places made is a hybrid, and is_symmetric_hunter denies it (C102_symmetric_hunters_refuted). Proved: the other direction for every lead, and the claims about hunt_bell_class, is_plain and is_treble_dodging in full. is_symmetric_hunter holds exactly when there are dominant hunt bells and their paths are not hybrid (C102_symmetric_hunters_are_those_not_hybrid)."
 },
 "C15": {
  "status": "proved",
  "note": "The documentation of from_is_odd says the opposite of what it does and of its name (C15_documentation_of_from_is_odd_refuted)."
 },
 "C103": {
  "status": "proved",
  "note": "Stated for at least two bells. With runs of one bell each pattern is there twice (C103_single_bells_refuted)."
 }
}