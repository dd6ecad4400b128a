{
 "claims": [
  {
   "property": "C01",
   "status": "proved",
   "theorems": [
    "C01_satisfy",
    "C01_compare",
    "C01_compare_total"
   ],
   "note": ""
  },
  {
   "property": "C02",
   "status": "partial",
   "theorems": [
    "C02_contain",
    "C02_interval_intersection_partial",
    "C02_no_value_lost",
    "C02_interval_intersection_refuted",
    "C02_exact"
   ],
   "note": "Exact when the two lower bounds have different values or the same strictness; no common value is ever lost; otherwise (C02_exact) exactly one value too many is in the result, the common lower end point that one operand has closed and the other one open, provided that it respects both upper ends."
  },
  {
   "property": "C03",
   "status": "partial",
   "theorems": [
    "C03_set_intersection_partial",
    "C03_set_intersection_refuted",
    "C03_exact"
   ],
   "note": "Exact under the same condition as C02 for every pair; C03_exact says which values are too many otherwise."
  },
  {
   "property": "C04",
   "status": "proved",
   "theorems": [
    "C04_sum",
    "C04_sum_sets"
   ],
   "note": ""
  },
  {
   "property": "C05",
   "status": "partial",
   "theorems": [
    "C05_kleene_plus_partial",
    "C05_kleene_plus_sets_partial",
    "C05_kleene_plus_refuted",
    "C05_point_interval_refuted",
    "C05_exact",
    "C05_point_exact"
   ],
   "note": "Exact for every bounded interval with 0 <= lower < upper except when both ends are open and the length goes k > 0 times into the lower end; then exactly the value k * upper is too many (C05_exact). Intervals without length are undefined behaviour (C05_point_exact)."
  },
  {
   "property": "C06",
   "status": "proved",
   "theorems": [
    "C06_tighten",
    "C06_tighten_clocks",
    "C06_tighten_upper",
    "C06_tighten_lower"
   ],
   "note": ""
  },
  {
   "property": "C07",
   "status": "proved",
   "theorems": [
    "C07_canonize_same_set",
    "C07_canonize_tightest",
    "C07_canonize_triangle"
   ],
   "note": ""
  },
  {
   "property": "C08",
   "status": "proved",
   "theorems": [
    "C08_satisfiable"
   ],
   "note": ""
  },
  {
   "property": "C09",
   "status": "proved",
   "theorems": [
    "C09_elapse"
   ],
   "note": ""
  },
  {
   "property": "C10",
   "status": "proved",
   "theorems": [
    "C10_reset"
   ],
   "note": ""
  },
  {
   "property": "C11",
   "status": "proved",
   "theorems": [
    "C11_abstractize_enlarges",
    "C11_abstractize_keeps_small",
    "C11_abstractize_idempotent"
   ],
   "note": ""
  },
  {
   "property": "C12",
   "status": "proved",
   "theorems": [
    "C12_makeUnsat",
    "C12_makeUnsat_undone_by_elapse"
   ],
   "note": "makeUnsat marks the zone for good as far as tightenings are concerned (C12_makeUnsat). Beyond the statement: a following elapse overwrites the mark (C12_makeUnsat_undone_by_elapse)."
  },
  {
   "property": "C13",
   "status": "partial",
   "theorems": [
    "C13_guard_implied_partial",
    "C13_lower_bounds_refuted",
    "C13_upper",
    "C13_lower"
   ],
   "note": "Every listed constraint is implied by the zone (C13_guard_implied_partial), and of every clock the strongest upper bound below the greatest constant is listed (C13_upper). Refuted for lower bounds: of them only x > 0 is ever listed, and exactly when no greater bound holds (C13_lower, C13_lower_bounds_refuted)."
  },
  {
   "property": "C14",
   "status": "partial",
   "theorems": [
    "C14_intersectionAssign_refuted",
    "C14_no_value_lost_partial",
    "C14_exact_iff_inside"
   ],
   "note": "Refuted: the result of cwiseMin is discarded, so that values outside the argument stay. No value of the intersection is lost; the result is the intersection exactly when the left zone is inside the right one."
  },
  {
   "property": "C15",
   "status": "partial",
   "theorems": [
    "C15_equal_same_set_partial",
    "C15_reflexive",
    "C15_symmetric",
    "C15_equal_same_set_refuted",
    "C15_reflexive_all",
    "C15_symmetric_all"
   ],
   "note": "Reflexive and symmetric also with entries that are -infinity (C15_reflexive_all, C15_symmetric_all). Equal zones denote the same set when not marked in the corner; refuted with makeUnsat."
  },
  {
   "property": "C16",
   "status": "proved",
   "theorems": [
    "C16_isMember"
   ],
   "note": ""
  },
  {
   "property": "C17",
   "status": "proved",
   "theorems": [
    "C17_deepCopy"
   ],
   "note": ""
  },
  {
   "property": "C18",
   "status": "partial",
   "theorems": [
    "C18_inputs",
    "C18_exact",
    "C18_sound",
    "C18_product_partial",
    "C18_product_words_partial",
    "C18_product_zeroDuration_refuted",
    "C18_product_overflow_refuted"
   ],
   "note": "Observable languages for same zeroDuration flags and at most 256 clocks in total; both restrictions are shown necessary by refutations. C18_inputs: the arguments, which the products change, keep their languages. C18_exact says what is accepted for any flags: the words of joint runs in which both automata are in states with the same flag at every moment; C18_sound: never more than both languages."
  },
  {
   "property": "C19",
   "status": "proved",
   "theorems": [
    "C19_reroot"
   ],
   "note": ""
  },
  {
   "property": "C20",
   "status": "proved",
   "theorems": [
    "C20_simulation",
    "C20_empty"
   ],
   "note": "Simulation and emptiness for strictly increasing time stamps and at most 255 clocks."
  },
  {
   "property": "C21",
   "status": "partial",
   "theorems": [
    "C21_termination_idle_partial",
    "C21_termination_mild_partial",
    "C21_cycle_diverges",
    "C21_termination_refuted",
    "C21_termination_acyclic_partial"
   ],
   "note": "Refuted: the abstraction forgets only large upper bounds, lower bounds grow for ever (exDiv). C21_cycle_diverges says it in general: a reachable cycle that waits for x and resets x, next to a clock that it does not reset, is enough, with or without upper bounds. Terminates for automata without cycles (C21_termination_acyclic_partial), for automata whose only cycles are loops without guards and resets (C21_termination_idle_partial), and for automata whose cycles have no lower bounds above 0, whatever they reset (C21_termination_mild_partial; all the automata shipped in examples/ are such)."
  },
  {
   "property": "C22",
   "status": "proved",
   "theorems": [
    "C22_empty"
   ],
   "note": ""
  },
  {
   "property": "C23",
   "status": "proved",
   "theorems": [
    "C23_epsilonClosure"
   ],
   "note": ""
  },
  {
   "property": "C24",
   "status": "proved",
   "theorems": [
    "C24_kept_inside",
    "C24_removeDeadStates"
   ],
   "note": "C24_kept_inside: the kept states are reachable and productive through kept states alone, and nothing is added."
  },
  {
   "property": "C25",
   "status": "partial",
   "theorems": [
    "C25_automaton_partial",
    "C25_rounds_partial",
    "C25_exits_partial",
    "C25_complete_refuted",
    "C25_complete_partial",
    "C25_last_partial"
   ],
   "note": "Refuted: states only productive through a state that is still being explored are dropped. Exact when every cycle of the zone automaton is a self-loop, or when from every productive state the last useful edge goes down in a ranking (C25_last_partial). On the timed automaton: when its cycles are self-loops without guards and resets (C25_automaton_partial), and with longer cycles without guards and resets when the transitions that go round stand before those that leave (C25_rounds_partial). With cycles that are restricted in time: when the clocks never prevent a transition and another useful transition stands behind the ones that do not go down (C25_exits_partial)."
  },
  {
   "property": "C26",
   "status": "proved",
   "theorems": [
    "C26_exit",
    "C26_attained",
    "C26_chars",
    "C26_exact",
    "C26_shortest",
    "C26_shortest_acyclic",
    "C26_lost_states_refuted",
    "C26_unobservable_refuted",
    "C26_unobservable_exit_refuted"
   ],
   "note": "Proved for automata whose zone automaton loses no useful state (the quantifier of the property; automatic for automata without cycles but idle self-loops) and words without unobservable events. Also, when the constructor gives up with exit(10), no word is accepted (C26_exit). The other side: m is the length of some accepted word and every character recorded occurs at its place in one (C26_attained, C26_chars); so without unobservable transitions the table is determined by the words (C26_exact). Refuted outside of it: lost states, unobservable transitions into accepting states."
  },
  {
   "property": "C27",
   "status": "proved",
   "theorems": [
    "C27_end",
    "C27_delta",
    "C27_length",
    "C27_lost_states_refuted"
   ],
   "note": "Both shifts, for patterns whose zone automaton loses no useful state (automatic without cycles), words with increasing time stamps over bytes 1..126 except '$'. Refuted for a(cd)*b where a useful state is lost."
  },
  {
   "property": "C28",
   "status": "partial",
   "theorems": [
    "C28_shift_partial",
    "C28_shift_event_partial",
    "C28_shift_refuted"
   ],
   "note": "Safe for matches beginning at an event time, and for all matches when upper bounds constrain only clocks that were reset. Refuted otherwise: widen removes lower instead of upper bounds."
  },
  {
   "property": "C29",
   "status": "proved",
   "theorems": [
    "C29_sound",
    "C29_sound_online"
   ],
   "note": "For monaaDollar on both containers. With unobservable transitions the code reports nothing, so nothing unsound."
  },
  {
   "property": "C30",
   "status": "partial",
   "theorems": [
    "C30_complete_partial",
    "C30_complete_event_partial",
    "C30_lost_states_refuted",
    "C30_complete_refuted",
    "C30_no_event_refuted"
   ],
   "note": "Every match with an event is reported under the same conditions as C27 and C28, for both containers; refuted without them, and for matches without events."
  },
  {
   "property": "C31",
   "status": "proved",
   "theorems": [
    "C31_nonempty_signal",
    "C31_nonempty_optional",
    "C31_nonempty",
    "C31_tight"
   ],
   "note": ""
  },
  {
   "property": "C32",
   "status": "partial",
   "theorems": [
    "C32_terminates_signal",
    "C32_terminates_optional",
    "C32_terminates",
    "C32_advances",
    "C32_byte127_refuted"
   ],
   "note": "Given that the tables were built (their construction may diverge, C21). Input bytes must be below 127: byte 127 reads outside of the delta array (refuted)."
  },
  {
   "property": "C33",
   "status": "proved",
   "theorems": [
    "C33_sound"
   ],
   "note": "For the branch without unobservable transitions, on both containers (C36_signal)."
  },
  {
   "property": "C34",
   "status": "partial",
   "theorems": [
    "C34_examined",
    "C34_sunday",
    "C34_complete_partial",
    "C34_kmp_refuted"
   ],
   "note": "Every match beginning at a position not passed over by a table is reported; the Sunday shifts never lose a match; nothing is lost by the KMP shifts when transitions into accepting states have no upper bounds (and the C28 condition). Refuted otherwise: the KMP table does not know that the accepting event may be moved forward."
  },
  {
   "property": "C35",
   "status": "partial",
   "theorems": [
    "C35_sound_partial",
    "C35_exact",
    "C35_sound_refuted"
   ],
   "note": "Refuted: the lower bound of the end is {t,true} instead of {-t,true}, so ends earlier than the event are reported. C35_exact says exactly which pairs are too many: a zone has only matches, or it belongs to an event at time u and consists of the pairs (t,t') with t<=t'<=u where (t,u) is a match. Every reported pair does begin a match ending at t' or later, and every zone contains a match."
  },
  {
   "property": "C36",
   "status": "proved",
   "theorems": [
    "C36_monaa",
    "C36_signal",
    "C36_optional",
    "C36_online_offline",
    "C36_online_no_throw"
   ],
   "note": ""
  },
  {
   "property": "C37",
   "status": "proved",
   "theorems": [
    "C37_fetch",
    "C37_at",
    "C37_at_fetched"
   ],
   "note": ""
  },
  {
   "property": "C38",
   "status": "partial",
   "theorems": [
    "C38_unknown",
    "C38_exact",
    "C38_right_iff",
    "C38_size_partial",
    "C38_size_refuted"
   ],
   "note": "C38_unknown/C38_exact: the size is unknown until a fetch misses; from then on it is the maximum of the length of the word and of the front at that time, for ever. So it is right iff the front was inside of the word (C38_right_iff); refuted after setFront past the end."
  },
  {
   "property": "C39",
   "status": "partial",
   "theorems": [
    "C39_blanks",
    "C39_wellformed",
    "C39_terminates",
    "C39_case",
    "C39_malformed_refuted",
    "C39_binary"
   ],
   "note": "Every spelling of a word with decimal numbers is read as the word, reading ends on every input, binary input is read record by record. Refuted for malformed lines: they become events at time 0. inf/nan/hexadecimal numbers are not modelled."
  },
  {
   "property": "C40",
   "status": "partial",
   "theorems": [
    "C40_constraint",
    "C40_guard",
    "C40_resets",
    "C40_accepted",
    "C40_terminates",
    "C40_empty_refuted",
    "C40_resetVars_refuted",
    "C40_wrap_refuted",
    "C40_truncated_refuted"
   ],
   "note": "Round trip for single constraints and non-empty lists; accepted texts are exactly spellings. Refuted: empty lists, ResetVars printing, clocks above 255, truncated lists (undefined)."
  },
  {
   "property": "C41",
   "status": "partial",
   "theorems": [
    "C41_language",
    "C41_guards",
    "C41_max",
    "C41_wf_partial",
    "C41_resets_refuted"
   ],
   "note": "Guards, maxConstraints and language exact. Refuted for resets: a clock that is only reset is not counted; well-formedness proved when every reset clock is at most some guard clock."
  },
  {
   "property": "C42",
   "status": "partial",
   "theorems": [
    "C42_language_partial",
    "C42_restriction_partial",
    "C42_clocks",
    "C42_plus_collapse",
    "C42_star",
    "C42_plus_refuted",
    "C42_conjunction_refuted",
    "C42_restriction_refuted",
    "C42_restriction_extra_refuted",
    "C42_matches",
    "C42_reported_sound",
    "C42_reported_complete_partial"
   ],
   "note": "Exact language for the fragment 'ok': plus only over expressions whose automaton has no zero-duration jumps into an inner start state, conjunction only without unobservable steps, and restriction with integer bounds over non-empty words; outside of it each operator is refuted by witness. End to end with monaaDollar: everything reported is a match of the expression, and every match is reported under the C30 conditions."
  },
  {
   "property": "C43",
   "status": "partial",
   "theorems": [
    "C43_lower_only_refuted",
    "C43_upper_only_partial"
   ],
   "note": "Refuted for lower-only restrictions (toEventTA is undefined: the infinite upper bound is converted to int); exact for upper-only ones in the same fragment as C42."
  },
  {
   "property": "C44",
   "status": "partial",
   "theorems": [
    "C44_language",
    "C44_reduce",
    "C44_reduce_empty_key_refuted"
   ],
   "note": "removeStuckStates keeps the language; reduceStates removes dead branches when no label has an empty edge list, refuted otherwise."
  },
  {
   "property": "C45",
   "status": "partial",
   "theorems": [
    "C45_fixed_partial",
    "C45_reset_refuted"
   ],
   "note": "Refuted: a reset on an unobservable transition stores the clock number 0, so the clock is measured from time 0 (witness exR: a pair is reported that is no match). With the variable newClock assigned, the results are matches (C45_fixed_partial). Patterns whose unobservable transitions reset nothing: C57."
  },
  {
   "property": "C46",
   "status": "proved",
   "theorems": [
    "C46_vec",
    "C46_count",
    "C46_printer"
   ],
   "note": "For AnsVec, the counter and the printer."
  },
  {
   "property": "C47",
   "status": "partial",
   "theorems": [
    "C47_event_defined_partial",
    "C47_nested_star_refuted",
    "C47_kmp_defined_partial",
    "C47_append_refuted",
    "C47_append_monaa_refuted",
    "C47_labels",
    "C47_label_refuted"
   ],
   "note": "No undefined operation when edges into accepting states stand last in their vectors; refuted otherwise (append while iterating), also from monaaDollar. From the text of a pattern: monaa is defined for every pattern x$ with upper bounds of at least 1 in which nothing that may match the empty word is repeated or restricted and no star stands directly below or behind & (predicate tame; C47_event_defined_partial; the outcomes are printed lines, the message that nothing matches, or no end). Refuted with stars inside of a repetition: C47_nested_star_refuted. Labels from CHAR_MAX on (DOT patterns): no table is ever made of a pattern that can read such a byte (C47_labels), and the program is undefined (C47_label_refuted)."
  },
  {
   "property": "C48",
   "status": "proved",
   "theorems": [
    "C48_same"
   ],
   "note": "After the first alloc, any sequence of guards, events, updates and further allocs gives zones that are satisfiable together and denote the same pairs. The state with one interval cannot be a matrix in the code (a matrix has a newest clock of at least 2)."
  },
  {
   "property": "C49",
   "status": "partial",
   "theorems": [
    "C49_conjunction_never_returns",
    "C49_terminates_refuted",
    "C49_terminates_partial"
   ],
   "note": "Without conjunctions the translation ends; with a conjunction anywhere it never returns (the inner loop over a conjunction does not advance), a&b uses up any fuel."
  },
  {
   "property": "C50",
   "status": "partial",
   "theorems": [
    "C50_complete_partial",
    "C50_lost_states_refuted",
    "C50_complete_refuted"
   ],
   "note": "Under the conditions of C30. Refuted without them by the patterns of C30: the Sunday sets lose states (C50_lost_states_refuted), and a KMP shift jumps over a match when an upper bound is on a clock that is never reset (C50_complete_refuted)."
  },
  {
   "property": "C51",
   "status": "partial",
   "theorems": [
    "C51_states_partial",
    "C51_unreachable_refuted",
    "C51_dead_refuted"
   ],
   "note": "Only: every non-accepting state has a successor and targets are states of the automaton. Refuted: unreachable and dead states remain."
  },
  {
   "property": "C52",
   "status": "proved",
   "theorems": [
    "C52_size",
    "C52_projection",
    "C52_not_canonical_refuted",
    "C52_case"
   ],
   "note": "For canonical zones (the quantifier of the property); more values for others (C52_not_canonical_refuted)."
  },
  {
   "property": "C53",
   "status": "proved",
   "theorems": [
    "C53_kept",
    "C53_meaning"
   ],
   "note": ""
  },
  {
   "property": "C54",
   "status": "proved",
   "theorems": [
    "C54_meaning"
   ],
   "note": "Decimal rendering of the numbers: C80."
  },
  {
   "property": "C55",
   "status": "partial",
   "theorems": [
    "C55_flags_lost",
    "C55_flags_refuted",
    "C55_round_trip",
    "C55_null_refuted",
    "C55_case"
   ],
   "note": "At the level of vertices, edges and attribute strings; the DOT syntax (boost graphviz reader) is trusted. Refuted for null targets (throws) and for zero_duration, which is printed but not read (C55_flags_lost, C55_flags_refuted)."
  },
  {
   "property": "C56",
   "status": "proved",
   "theorems": [
    "C56_sound",
    "C56_count",
    "C56_case"
   ],
   "note": "For a given automaton; option parsing is not part of it."
  },
  {
   "property": "C57",
   "status": "proved",
   "theorems": [
    "C57_sound",
    "C57_nonempty"
   ],
   "note": "On the vector container; the lazy one gives the same by C36_monaa."
  },
  {
   "property": "C58",
   "status": "partial",
   "theorems": [
    "C58_terminates_partial",
    "C58_terminates_refuted"
   ],
   "note": "Terminates when the unobservable transitions form no cycle; refuted with an unobservable self-loop: the loop never ends, whatever the fuel."
  },
  {
   "property": "C59",
   "status": "partial",
   "theorems": [
    "C59_examined_partial",
    "C59_complete_refuted"
   ],
   "note": "Every match whose unobservable steps are strictly later than the events before them is reported unless a table passes over its position. Refuted for steps at the very time of the event before them."
  },
  {
   "property": "C60",
   "status": "partial",
   "theorems": [
    "C60_second_call_refuted",
    "C60_guard_refuted",
    "C60_no_more_clocks_partial",
    "C60_observable_partial"
   ],
   "note": "Refuted: zeroResetTime is a function-local static, so a later pattern with more clocks reads outside of the vector (C60_second_call_refuted). Proved: a later pattern with no more clocks than the first, or without unobservable transitions, gives what it gives in a process of its own (C60_no_more_clocks_partial, C60_observable_partial). A guard is enough, no reset is needed (C60_guard_refuted)."
  },
  {
   "property": "C61",
   "status": "proved",
   "theorems": [
    "C61_separation_is_dead"
   ],
   "note": "The separation code is a parameter of the model; the result is the same for all values of it."
  },
  {
   "property": "C62",
   "status": "partial",
   "theorems": [
    "C62_aliasing_accepts_refuted",
    "C62_aliasing_misses_refuted",
    "C62_within_sequence_accepts_refuted",
    "C62_within_sequence_misses_refuted",
    "C62_plus_refuted",
    "C62_words_partial",
    "C62_signals_partial",
    "C62_exact_partial",
    "C62_restriction",
    "C62_empty_plus_refuted"
   ],
   "note": "Refuted in general: singletons shared between disjuncts are changed in place; a restriction over a sequence measures only what follows its first segment (C62_restriction: exactly that, for every automaton); (a%(1,2))+ accepts duration 2. Proved on a fragment (no conjunction, no empty word, only one letter restricted or iterated, no disjunct whose merged letter is shared; integer bounds all closed or all open below): the accepted words are the words of the expression with equal neighbours merged; exact for signals when no word repeats a letter at once. Missing: sequences under a restriction or plus, mixed bounds, and the difference that letters lasting 0 make when neighbours are merged. Repetitions of the empty expression give the empty automaton (C62_empty_plus_refuted)."
  },
  {
   "property": "C63",
   "status": "partial",
   "theorems": [
    "C63_empty_refuted",
    "C63_plus_refuted",
    "C63_within_infinite_refuted",
    "C63_returns_partial",
    "C63_plus_undefined",
    "C63_plus_nothing"
   ],
   "note": "Refuted: the empty expression in a sequence, plus over a sequence of two letters, a restriction without upper bound over a sequence. Proved: on the fragment of C62, with only unrestricted letters iterated and fewer than 32 disjuncts below a plus, a well-formed automaton with at most one clock is returned. Every plus that the normal form leaves is undefined if its argument has a word with an event (C63_plus_undefined), and otherwise does nothing (C63_plus_nothing)."
  },
  {
   "property": "C64",
   "status": "partial",
   "theorems": [
    "C64_sound",
    "C64_complete",
    "C64_errors",
    "C64_decides",
    "C64_number_refuted",
    "C64_letters",
    "C64_blank_refuted"
   ],
   "note": "Only exception: a number that does not fit an int is undefined behaviour (atoi). The events of an expression are letters of its text (C64_letters); a blank is not an event, although doc/TRE.md says so (C64_blank_refuted)."
  },
  {
   "property": "C65",
   "status": "partial",
   "theorems": [
    "C65_precedence_refuted",
    "C65_conjunction_refuted",
    "C65_usual_partial",
    "C65_exact",
    "C65_spelling_independent"
   ],
   "note": "Refuted for concatenation: ab|c is read as a(b|c) (C65_precedence_refuted), and for conjunction: a&b|c is read as a&(b|c), which matches nothing (C65_conjunction_refuted). Proved for trees in which an operand left of | or & is a single item or in parentheses (left_items), which is everything else. Exactly: every text is read with postfix operators first and concatenation, & and | alike from the right (C65_exact)."
  },
  {
   "property": "C66",
   "status": "proved",
   "theorems": [
    "C66_parenthesised"
   ],
   "note": ""
  },
  {
   "property": "C67",
   "status": "partial",
   "theorems": [
    "C67_version",
    "C67_usage",
    "C67_option_error",
    "C67_parse_error",
    "C67_word_file",
    "C67_statuses",
    "C67_status_refuted",
    "C67_missing_pattern_refuted",
    "C67_guard_error_refuted"
   ],
   "note": "Refuted: a pattern that matches without an event ends with status 10, a missing pattern with status 0, a bad guard in a DOT file with an uncaught exception."
  },
  {
   "property": "C68",
   "status": "partial",
   "theorems": [
    "C68_exact_partial",
    "C68_rising_partial",
    "C68_iff_partial",
    "C68_sound",
    "C68_meant_partial",
    "C68_no_dollar",
    "C68_complete_partial",
    "C68_documented_conjunction_refuted",
    "C68_documented_without_dollar_refuted",
    "C68_missed_refuted",
    "C68_rising_iff_partial",
    "C68_until_last",
    "C68_order_refuted",
    "C68_silence_refuted"
   ],
   "note": "Sound for expressions in the fragment ok (through C42); the complete half has the side conditions of the skip tables (C30). From the texts alone: C68_exact_partial says for a fragment of the patterns (+ and * over anything that is not empty, without restrictions, or restricted so that no time has to pass; no * at the beginning) that monaa returns, prints only matches, all that begin at an event, all of them if nothing at the beginning is restricted in time (C68_iff_partial), and exits with 10 only if there is none. When the addresses of states increase in the order of their creation, stars and choices at the beginning are covered too (C68_rising_partial, C68_rising_iff_partial); with decreasing addresses (A*B)$ is said to match nothing (C68_order_refuted). Nothing that begins at or behind the last event is reported (C68_until_last, C68_silence_refuted). Refuted from the texts with a restriction at the beginning: C68_missed_refuted. The model prints exactly the outputs expected by examples/integrated_test.sh; two examples of the documentation are refuted."
  },
  {
   "property": "C69",
   "status": "partial",
   "theorems": [
    "C69_language_partial",
    "C69_statuses",
    "C69_nested_star_refuted"
   ],
   "note": "Language for expressions in which every restriction has an upper bound and no star stands directly below a repetition, a restriction or & or directly behind & (starsafe); the rest is covered by C42. Refuted without that: the automaton that tre2ta prints for (b*|a)+ does not accept the word a a (C69_nested_star_refuted)."
  },
  {
   "property": "C70",
   "status": "partial",
   "theorems": [
    "C70_sound_partial",
    "C70_complete_partial",
    "C70_printed_partial",
    "C70_found_partial",
    "C70_missed_refuted"
   ],
   "note": "For the fragment of C62: every printed block is satisfiable, and its solutions are segments of the input signal that the expression describes, up to letters that last 0 (C70_printed_partial, from the texts on). Conversely every segment is a match of the automaton (C70_complete_partial) and is printed if it begins where no table skips (C70_found_partial). Refuted without that condition: C70_missed_refuted is a run of monaa -s whose output lacks a segment because of a KMP shift. Binary input: C82_same. Missing: expressions outside the fragment."
  },
  {
   "property": "C71",
   "status": "partial",
   "theorems": [
    "C71_flags",
    "C71_common_words_partial",
    "C71_complete_partial",
    "C71_sound_partial",
    "C71_sound_refuted",
    "C71_complete_refuted",
    "C71_flags_refuted",
    "C71_overflow_refuted",
    "C71_unobservable_refuted"
   ],
   "note": "Complete for words whose letters all last (C71_complete_partial) and for common words (C71_common_words_partial); sound when a state has one letter and accepting states have none (C71_sound_partial), which is the shape that toSignalTA gives to chains. Without these conditions refuted: C71_sound_refuted, C71_complete_refuted. Refuted with unobservable transitions in an argument (C71_unobservable_refuted; C71_common_words_partial has them), with different zeroDuration flags (C71_flags_refuted) and with more than 256 clocks (C71_overflow_refuted)."
  },
  {
   "property": "C72",
   "status": "partial",
   "theorems": [
    "C72_event_returns_partial",
    "C72_waiting_loop_refuted",
    "C72_returns_partial",
    "C72_returns_signal_partial",
    "C72_returns_optional_partial",
    "C72_cycle_never_returns",
    "C72_returns_refuted",
    "C72_unobservable_refuted"
   ],
   "note": "Refuted: a cycle that waits for a clock and resets it makes the KMP table of the pattern infinite (C72_returns_refuted with 1 < x < 20, in general C72_cycle_never_returns; from the text of a pattern C72_waiting_loop_refuted); a loop before an unobservable transition into an accepting state makes the loop of SundaySkipValue infinite (C72_unobservable_refuted). Proved for patterns without unobservable transitions whose cycles have no lower bounds above 0 (with resets; examples/TA/timed.dot is C72_case_cycle), in the three modes. From the text: C72_event_returns_partial, for the patterns x$ of C47_event_defined_partial without positive lower bounds below a + or *."
  },
  {
   "property": "C73",
   "status": "proved",
   "theorems": [
    "C73_zero",
    "C73_universal",
    "C73_forgets",
    "C73_cache"
   ],
   "note": "The cached zones are part of this model; negative sizes are not."
  },
  {
   "property": "C74",
   "status": "partial",
   "theorems": [
    "C74_words",
    "C74_final",
    "C74_none_lost",
    "C74_none_lost_refuted",
    "C74_before"
   ],
   "note": "C74_words says exactly which words are accepted, for every automaton. As stated it holds when accepting states have no transitions (C74_final, C74_none_lost), which is the case for all automata of toSignalTA (C74_before). Refuted otherwise: an accepting state entered both by a repeating and another transition loses the words of the other one."
  },
  {
   "property": "C75",
   "status": "partial",
   "theorems": [
    "C75_first_call",
    "C75_flags",
    "C75_later_call_refuted",
    "C75_any_map"
   ],
   "note": "Proved for the first call of a process; for later calls, only that the result is well formed and that no unobservable transition leads into an accepting state. The language is refuted for later ones: the static map is indexed by addresses of states that may be gone."
  },
  {
   "property": "C76",
   "status": "partial",
   "theorems": [
    "C76_paths",
    "C76_untimed",
    "C76_empty_iff",
    "C76_zero_refuted"
   ],
   "note": "Proved when some element of maxConstraints is positive (C76_paths, C76_untimed, C76_empty_iff). Refuted when the only constant is 0: a guard x < 0 is then ignored."
  },
  {
   "property": "C77",
   "status": "partial",
   "theorems": [
    "C77_message_partial",
    "C77_signal_partial",
    "C77_signal_exact_partial",
    "C77_zero_refuted"
   ],
   "note": "Event mode: for the patterns of C68_exact_partial without intervals written backwards. Signal mode: for the fragment of C78 without upper bounds 0. Refuted with the upper bound 0: monaa -s -e 'A(B%[0,0])' does not say that the pattern is empty."
  },
  {
   "property": "C78",
   "status": "partial",
   "theorems": [
    "C78_returns_partial",
    "C78_twice_refuted"
   ],
   "note": "For the fragment of C63_returns_partial, when moreover the last letter of every disjunct does not come from an iteration of several disjuncts; refuted without that: (A|A)+ has three transitions into the accepting state in one vector, to which the constructor of the KMP table appends while iterating over it."
  },
  {
   "property": "C79",
   "status": "partial",
   "theorems": [
    "C79_converted",
    "C79_exact",
    "C79_without_number",
    "C79_binary_refuted",
    "C79_never_refuted",
    "C79_overflow_refuted",
    "C79_number_refuted",
    "C79_files",
    "C79_no_events_refuted",
    "C79_options",
    "C79_malformed_refuted",
    "C79_missing",
    "C79_same_file_refuted",
    "C79_created_refuted",
    "C79_records",
    "C79_rounded"
   ],
   "note": "Refuted as written: monaa -b takes the number in front for an event (C79_never_refuted), a text without number or without events is undefined (C79_number_refuted, C79_no_events_refuted), -i f -o f empties f first (C79_same_file_refuted), also when -o f comes first and f does not exist yet (C79_created_refuted), a line without number becomes an event at the time of the event before (C79_malformed_refuted). C79_converted covers every number, including too large ones; C79_options every list of options. A number in front that is no int is undefined (C79_overflow_refuted). With the eight bytes that fwrite writes of a double (enc64, Enc.v), the records alone are read back by monaa -b as the same letters with times rounded to the nearest double, unchanged if they are doubles (C79_records); so is, behind its first four bytes, the file that ascii2bin makes of a text (C79_rounded)."
  },
  {
   "property": "C80",
   "status": "partial",
   "theorems": [
    "C80_read",
    "C80_printed",
    "C80_exact",
    "C80_reports",
    "C80_text_partial",
    "C80_digits_refuted",
    "C80_signal_partial",
    "C80_segments_partial"
   ],
   "note": "Doubles are exact rationals here: the printed digits of a double are those of the exact value of the computation. The sign of a zero (-0.000000) is not modelled; all theorems hold for all signs. C80_text_partial has the restrictions on patterns of C68_iff_partial. With more than six decimals the text may hide matches (C80_digits_refuted). C80_documented: the bytes in examples/integrated_test.sh. Signal mode: C80_signal_partial and C80_segments_partial, for the fragment of C70."
  },
  {
   "property": "C81",
   "status": "partial",
   "theorems": [
    "C81_same",
    "C81_same_signal",
    "C81_same_optional",
    "C81_causal",
    "C81_causal_signal",
    "C81_causal_optional",
    "C81_kept",
    "C81_final",
    "C81_prompt_refuted",
    "C81_same_eps",
    "C81_causal_eps",
    "C81_kept_eps",
    "C81_final_eps"
   ],
   "note": "Causality, prefix property and finality are proved for all patterns. That reports come in time is refuted: while an attempt at an early position is alive no later position is tried; ((A B* C)%(<5) | B)$ has no match that lasts 5, but on A B B B ... the match of the first B is not reported however many B follow. Reports are calls of push_back; the buffering of stdout is not modelled. The branch of monaa for unobservable transitions is covered too (C81_same_eps, C81_causal_eps, C81_kept_eps; C81_final_eps if no unobservable transition resets a clock, see C45, and the run on the longer log returns, see C58)."
  },
  {
   "property": "C82",
   "status": "proved",
   "theorems": [
    "C82_double",
    "C82_text",
    "C82_same",
    "C82_run",
    "C82_range",
    "C82_kept",
    "C82_enc"
   ],
   "note": "Little-endian IEEE 754 binary64, finite values; infinities and NaN in the file are not modelled (decoded as 0). Event bytes that are white space have no text, so C82_text and C82_run exclude them (C82_same needs the text). The numbers of eight bytes are exactly the doubles of C85 (C82_range), so rounding keeps every time read from a binary word (C82_kept); the bytes written for a number decode to it rounded (C82_enc). Comparison is of the exact model: in text mode the program itself rounds to a double."
  },
  {
   "property": "C83",
   "status": "partial",
   "theorems": [
    "C83_text",
    "C83_binary",
    "C83_main",
    "C83_vector",
    "C83_vector_refuted",
    "C83_kept",
    "C83_available",
    "C83_arrived",
    "C83_lag_refuted",
    "C83_record"
   ],
   "note": "Proved that reading on demand makes no difference (C83_text, C83_binary, C83_main) and that what was read stays (C83_kept, C83_record). Refuted: WordVector keeps the time of the event before for a line without number, where LazyDeque has 0 (C83_vector_refuted; the same word for every text in the format, C83_vector). In text mode the newline at the end of the format of fscanf waits for the next character that is not white space, so the last event of the text is never there before the next line begins (C83_available, C83_arrived), and the reports do not depend on it (C83_lag_refuted). inf, nan and hexadecimal numbers are left out, as in C39; buffering of stdin and stdout is not modelled."
  },
  {
   "property": "C84",
   "status": "partial",
   "theorems": [
    "C84_update",
    "C84_valid",
    "C84_together_refuted",
    "C84_maker",
    "C84_unreachable_undefined",
    "C84_unreachable_nothing",
    "C84_unreachable_refuted",
    "C84_unreachable_inverted"
   ],
   "note": "C84_update, C84_valid and C84_maker hold. updateConstraint takes the lower bound as it is, isValidConstraint takes it negated, so they do not fit together (C84_together_refuted). removeUnreachableStates writes the initial states into an empty vector: undefined for every automaton with an initial state (C84_unreachable_undefined), it removes nothing otherwise (C84_unreachable_nothing, C84_unreachable_refuted); with room in the vector it would remove the reached states instead of the others (C84_unreachable_inverted). Its only call is commented out."
  },
  {
   "property": "C85",
   "status": "partial",
   "theorems": [
    "C85_exact",
    "C85_nearest",
    "C85_rnd64",
    "C85_direction",
    "C85_sound",
    "C85_all_doubles_refuted",
    "C85_decimal_refuted"
   ],
   "note": "C85_exact, C85_nearest and C85_sound hold on grids. Rounding to nearest even is shown to answer a nearest double (C85_rnd64), and for every such rounding a comparison of a clock errs in one direction only: strict constraints that are found to hold do hold, others are found to hold if they do (C85_direction). For arbitrary doubles false: with events at 0.1 and 2.1 the clock is a little more than 2, the rounded difference is 2, so a pair is reported that is no match (C85_all_doubles_refuted). Decimal times are rounded already when they are read: with events at 2.4 and 4.4 the pair (2,5) is a match of the decimal word, and nothing is reported (C85_decimal_refuted). The rounding of the skip tables is not modelled, except for single transitions of the zone automaton (C86)."
  },
  {
   "property": "C86",
   "status": "partial",
   "theorems": [
    "C86_tighten",
    "C86_canonize",
    "C86_satisfiable",
    "C86_succ",
    "C86_large_refuted"
   ],
   "note": "C86_tighten, C86_canonize, C86_satisfiable and C86_succ hold. For large bounds false: x<=1, y-x<=2^53, z-y<=-1, z>=2^53 has a point, but 2^53+1 is rounded to 2^53 and the zone is found empty (C86_large_refuted)."
  }
 ]
}