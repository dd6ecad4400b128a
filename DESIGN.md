# Formal model of MONAA (MasWag/monaa)

Everything below is about the C++ sources in `/repo` at the pinned commit, read as text.
Nothing was compiled or run.  `libmonaa/x.hh:a-b` in the comments of the model files means
lines a to b of `/repo/libmonaa/x.hh`.

## How the code is modelled

* `double` -> `num` (`Num.v`): exact rationals plus `-inf`, `+inf`, `NaN`.  Rounding is
  not modelled except in `Round.v` (C85); comparison, addition, min/max and NaN follow IEEE 754 and `std::pair`.
  Valuations and time points range over Q (every finite double is rational; a zone with
  rational bounds contains a real point iff it contains a rational one).
* `Eigen` matrix -> list of rows; loops that update in place -> folds in the same order.
* Pointers to automaton states -> numbers.  The number is the address, so code that sorts or
  bisects by pointer is modelled by the order on numbers, and every theorem quantifies over
  all automata, hence over all placements in memory.  Null pointer -> `None`.
* Pointers to states that the code allocates itself (products, zone automata) come from an
  allocation function `alloc` that the theorems quantify over.
* `std::unordered_map` -> association list in iteration order.  Every theorem quantifies over
  all association lists, hence over all iteration orders.
* Undefined behaviour, thrown exceptions, `exit(n)` and non-termination are separate outcomes
  of one type (`Outcome.v`): `Ok`, `UB`, `Throw`, `Exit n`, `OutOfFuel`.
* Loops without a syntactic bound take fuel and return `OutOfFuel` when it runs out.  A
  theorem that says the code terminates shows a fuel for which the result is not `OutOfFuel`; a
  theorem that says it does not terminate shows `OutOfFuel` for every fuel.
* Small integer types are unbounded numbers except where a theorem is about the bound
  (`uint8_t` clocks in C18/C40, byte-indexed tables in C32).
* The concept-style template parameters of `monaa.hh` (word container, answer container) are
  ordinary parameters: a record `cont` of functions (`Word.v`).

## Files

| model file | code |
|---|---|
| Num.v, Outcome.v | doubles, bounds (`libmonaa/zone.hh` `Bounds`), outcomes |
| Constraint.v | `libmonaa/constraint.hh` |
| Interval.v | `libmonaa/interval.hh` |
| Zone.v | `libmonaa/zone.hh` |
| TA.v | `libmonaa/timed_automaton.hh` (classes, `isMember`) |
| Intersection.v | `libmonaa/intersection.cc` `intersectionTA`, `updateInitAccepting` |
| ZA.v | `libmonaa/zone_automaton.hh`, `libmonaa/ta2za.cc` |
| Skip.v | `libmonaa/sunday_skip_value.hh`, `libmonaa/kmp_skip_value.hh`, the preparation of the pattern in `libmonaa/monaa.hh` |
| Monaa.v | `libmonaa/monaa.hh`: matching loops of `monaaDollar`, `monaa` (without unobservable transitions), `monaaNotNecessaryDollar` |
| EpsZone.v | `libmonaa/intermediate_zone.hh`; `monaa` with unobservable transitions |
| Word.v | `libmonaa/word_container.hh`, `libmonaa/lazy_deque.hh` |
| Text.v | printing and reading of constraints, guards, resets, words; `convBoostTA` |
| Ans.v | `libmonaa/ans_vec.hh`; the matching and printing part of `monaa/main.cc` |
| Tre.v | `monaa/tre.hh`, `monaa/tre.cc` (event mode) |
| Signal.v | `monaa/intermediate_tre.hh`, `monaa/intermediate_tre.cc`, `monaa/tre.cc:436-491` (signal mode), on a heap of shared objects |
| SignalSpec.v | specification: signals, and the signals of an expression |
| SignalFacts.v, SignalTerm.v, PropSignal.v | facts and theorems on signal mode |
| SignalRep.v, SignalBuild.v, SignalTop.v | which lists of intervals the objects on the heap stand for, and the automaton they give |
| SignalDur.v, SignalWords.v, SignalAut.v, PropSignal2.v | the intervals that come up, the words of a run, the language of the automaton; C62 and C63 on a fragment |
| Parse.v | `monaa/tre_lexer.l`, `monaa/tre_parser.yy`, `monaa/tre_driver.hh` |
| ParseSpec.v | specification: syntax trees, their spellings and their meaning |
| Main.v | `monaa/main.cc`, `monaa/tre2ta.cc`: choice of pattern, word and algorithm, exit statuses |
| ParseFacts.v, PropParse.v, MainFacts.v, TreConsts.v, PropMain.v | facts and theorems on the above |
| IntersectionSignal.v, PropInterSig.v | `libmonaa/intersection.cc:164-312` (`intersectionSignalTA`), C71 |
| PropStatic.v | C75, C74_before |
| PropStaticVec.v | C60, positive part |
| PropEpsSim.v | C36 for patterns with unobservable transitions |
| ZATerm.v, ZALive.v, ZADiv.v, ZAFin.v | termination of `ta2za`, liveness of what `removeDeadStates` keeps, divergence on cycles that wait, finiteness on cycles that do not |
| SundayTerm.v, KmpTerm.v, KmpHang.v, PropTerm.v | whether the tables are ever finished: C21, C24, C72 |
| TreMild.v, PropEvent.v | which automata the regular expressions give, as far as C47 and C72 need it; both properties from the text of the pattern |
| TreLean.v, ZAIdle.v, PropExact.v | which expressions meet the conditions of C25, C26 and C30; C68 from the texts, both directions |
| PropMissed.v | C68: a match that is missed, from the texts |
| ZALast.v, ZACong.v, ZAOrder.v, ZALoop.v, TreLoop.v, ZASupple.v, TreSupple.v | dead state removal with longer cycles, for C25 and C68 |
| ZAExact.v | the zones of the zone automaton contain no valuation that no run reaches, for C76 and C26 |
| Rename.v | renameToEpsilonTransitions with its static map (monaa/tre.cc:436-491) |
| TreKnown.v, PropEmpty.v | constants of guards and maxConstraints of translated expressions; C77 |
| SignalLast.v, PropSignal5.v | signal mode: no cycles, lonely transitions into accepting states; C78 |
| RenameAny.v | C75: renaming with whatever is left in the static map |
| SignalKnown.v | the constants of signal automata are known to their zone automata |
| PropSignal6.v | C77 for signal mode |
| Bin.v | ascii2bin |
| PropBin.v | C79 |
| Print.v | the bytes that PrintContainer writes |
| PrintFacts.v | the digits are those of the nearest millionth |
| PrintMicro.v | zones of words with at most six decimals have such bounds |
| PropPrint.v | C80: reader of the text |
| PropPrintMain.v | C80: from texts to the text |
| PropSignal7.v | C62: the language of a restricted automaton in signal mode |
| Conform.v | The project's unit tests (test/*.cc) as examples computed on the model: intervals, constraints, zones, intermediate zones, ta2za, zone automata, products, Sunday table, lazy deque (text and test/binary_test.bin), monaa (two of the three automata of timedFJS_test.cc), the automaton reader, toEventTA, toNormalForm, toSignalTA, renameToEpsilonTransitions, concat2 |
| ConformKmp.v | test/kmp_skip_value_test.cc on the model |
| ConformMain.v | examples/integrated_test.sh on the model of main and of the output stream: byte for byte |
| Online.v | `libmonaa/monaa.hh`: the matching loops with the order of fetch, setFront and push_back |
| PropOnline.v | C81 |
| PropIvals.v | Exact descriptions of `&&`, `land`, `plus` and `LazyDeque::size` where the property fails |
| Ieee.v | the eight bytes read by `getOneBinary` (`libmonaa/lazy_deque.hh:16-23`) as a double: little-endian binary64; infinities and NaN decode to 0 |
| PropBinary.v, PropProd.v, PropSignal8.v | C82, C18, C62 |
| ConformDoc.v | the commands of `doc/getting_started.md`, `doc/TRE.md`, `doc/TA.md` on the model give the documented output byte for byte, except the conjunction of TRE.md: C68_documented_conjunction_refuted |
| PropGuard.v | C13: what `makeGuard` lists, exactly |
| PropPrintSignal.v | C80 in signal mode |
| OnlineEps.v, PropOnlineEps.v | C81 for monaa.hh:497-692 (unobservable transitions) |
| Stream.v, PropStream.v | C83: `libmonaa/lazy_deque.hh` on a FILE, `WordVector::WordVector`, `main` with the file |
| Unused.v, PropUnused.v | monaa.hh:99-140 updateConstraint, constraint.hh:71-88 ConstraintMaker, tre.cc:138-185 removeUnreachableStates (not called) |
| Round.v, PropRound.v | the matching loops of monaa.hh with the rounding of double sums and differences |
| RoundZone.v, PropRoundZone.v | tighten, canonize, isSatisfiable of zone.hh and the successor zone of ta2za.cc with the rounding of sums |
| PropTextEx.v | the refutation C69_nested_star_refuted; labels from CHAR_MAX on (C47) |
| PropDouble.v | the numbers of eight bytes are exactly the doubles of C85; bytes written by ascii2bin read back |
| Enc.v | the eight bytes of a double that ascii2bin writes |
Specifications, independent of the functions of the model: Spec.v (runs, languages, matches),
ZASpec.v (graphs), EpsSpec.v (matches with unobservable steps), and the definitions at the top
of the `Prop*.v` files.  Proof files: `*Facts.v` and the others.  `Prop*.v` hold the claimed
theorems with concrete cases (`Example Cxx_case`) that meet their hypotheses.  `Audit.v` prints
the assumptions of every claimed theorem.

## Not modelled

* `monaa/objective_tre.hh` and the separation code of `monaa/intermediate_tre.cc` (a parameter of the
  model, C61: it is never run).  `intersectionSignalTA` is modelled by itself (C71); its only caller,
  `DNFTRE::toSignalTA`, drops the result.
* `boost::program_options`: `Main.v` begins with the parsed options; an unknown option throws before.
* The tables that Bison generates from `tre_parser.yy`: `Parse.v` is a stack machine of the grammar
  that shifts in every shift/reduce conflict, which is what Bison does by default.  The generated
  Flex scanner is modelled by its rules (longest match, first rule; no rule: `LexerError`, status 2).
* `Main.v` reads the whole word before matching; `Stream.v` reads it while matching (C83: no difference
  on inputs without inf, nan and hexadecimal numbers).
* The DOT reader of Boost Graph (`boost::read_graphviz`): the model begins with the vertices,
  edges and attribute strings.
* `boost::lexical_cast`, `std::istream >>` and `scanf` are modelled for the types and formats that
  the code uses (decimal numbers; `inf`, `nan`, hexadecimal floats excluded).
* The sign of a zero that is printed (`Print.v` takes it as a parameter, C80).
* Floating-point rounding (except in the matching loops, Round.v), memory exhaustion, performance and latency.
* Uninitialised memory other than as an undefined outcome.

## Trusted base

* The Coq 8.16.1 kernel (and `coqchk` as a second check).
* `Print Assumptions` for every theorem in `MANIFEST.json`: "Closed under the global context" (see
  `Audit.v`): no axiom is used.  `coqchk` lists seven constants of the standard library's
  `Coq.ssr.ssrunder` because the library is loaded by `lia`/`lra`; no theorem depends on them.
* That the definitions in the model files say what the cited lines of C++ do, with the
  simplifications above.  `Conform.v`, `ConformKmp.v` and `ConformMain.v` check this against the project's own
  expectations: every deterministic unit test of `test/` (except `timedFJSTorque`, which the model
  also passes but which takes 36 s) and the integrated tests of `examples/integrated_test.sh`
  give on the model what the project expects of the program.

## Defects of the code found by the proofs

Each is a theorem `..._refuted` (or a named lemma) with a concrete witness.

| theorem | defect |
|---|---|
| C02_interval_intersection_refuted, C03_set_intersection_refuted | `Interval &&`: of two equal bounds the non-strict one is kept, `[1,oo) && (1,oo)` contains 1 |
| C05_kleene_plus_refuted, C05_point_interval_refuted | Kleene plus of intervals: `(1,2)+` contains 2; `[1,1]+` divides by zero and converts infinity to int |
| C12_makeUnsat_undone_by_elapse | `makeUnsat` then `elapse`: the zone is satisfiable again |
| C13_lower_bounds_refuted | `makeGuard` skips or negates lower bounds |
| C14_intersectionAssign_refuted | `intersectionAssign` does not intersect |
| C15_equal_same_set_refuted | `==` ignores the mark of `makeUnsat` |
| C18_product_zeroDuration_refuted, C18_product_overflow_refuted | product: pairs with different zeroDuration flags are dropped; clock numbers wrap at 256 |
| C21_termination_refuted | `ta2za` does not terminate: the abstraction widens upper bounds only |
| C25_complete_refuted, C26_lost_states_refuted, C27_lost_states_refuted, C30_lost_states_refuted | states that reach an accepting state only through a state still being explored are dropped from zone automata; the skip tables then pass over matches |
| C26_unobservable_refuted, C26_unobservable_exit_refuted | Sunday table with unobservable transitions |
| C28_shift_refuted, C30_complete_refuted | KMP table: `widen` removes lower instead of upper bounds; matches are skipped |
| C30_no_event_refuted | matches without an event are never reported |
| C32_byte127_refuted | byte 127 is read outside of the `delta` array |
| C34_kmp_refuted | the KMP shift assumes that the last event is at the end of a match |
| C35_sound_refuted | `monaaNotNecessaryDollar`: sign error in the lower bound of the end |
| C38_size_refuted | `LazyDeque::size` after `setFront` past the end |
| C39_malformed_refuted | malformed lines become events at time 0 |
| C40_*_refuted | printing/reading of guards and resets: empty lists, ResetVars, clocks above 255, truncated lists |
| C41_resets_refuted | a clock that is only reset is not counted by `convBoostTA` |
| C42_plus_refuted, C42_conjunction_refuted, C42_restriction_refuted, C42_restriction_extra_refuted | translation of expressions: `+`, `&` and `%` outside of the fragment `ok` |
| C43_lower_only_refuted | `e%(>s)`: infinity is converted to int |
| C44_reduce_empty_key_refuted | `reduceStates` keeps states whose only edge list is empty |
| C45_reset_refuted | resets on unobservable transitions use clock number 0 |
| C47_append_refuted, C47_append_monaa_refuted | KMP preparation appends to the vector it iterates over |
| C51_unreachable_refuted, C51_dead_refuted | unreachable and dead states remain in translated automata |
| C55_null_refuted | printing an automaton with a null target throws |
| C58_terminates_refuted | unobservable cycles make `monaa()` run for ever |
| C59_complete_refuted | unobservable steps at the very time of the previous event are not found |
| C60_second_call_refuted | the initial reset times are a function-local static sized by the first pattern |
| C49_terminates_refuted, C49_conjunction_never_returns | signal mode: an expression with `&` makes `DNFTRE::toNormalForm` run for ever |
| C61_separation_is_dead | signal mode: the separation of Mixed expressions is never reached |
| C62_*_refuted | signal mode: singletons shared between disjuncts are changed in place; `(ab)%(1,2)` measures only `b`; `(a%(1,2))+` accepts 2 |
| C63_*_refuted | signal mode: `a*b`, `(ab)+` and `(ab)%(>1)` are undefined behaviour |
| C64_number_refuted | a number above 2147483647 in an expression is undefined behaviour (`atoi`) |
| C65_precedence_refuted | `ab\|c` is read as `a(b\|c)`: no precedence is given to concatenation |
| C67_status_refuted | `monaa '$'` ends with status 10 |
| C67_missing_pattern_refuted | no pattern at all is not an error |
| C67_guard_error_refuted | a bad guard in a DOT file is an uncaught exception |
| C68_documented_conjunction_refuted | the output given in `doc/TRE.md` for `(((AB)%(0,1)C)&(A(BC)%(1,20)))$` is wrong |
| C68_documented_without_dollar_refuted | the example of `doc/man.md`, `monaa -e '(ab)%(2,10)'`, can never report anything |
| C70_missed_refuted | `monaa -s -e '(CAB%[5,20])\|(AB%[0,1])'` misses a match: the KMP table does not know that the last event may be moved forward |
| C71_sound_refuted | `intersectionSignalTA`: with a state that has two letters, a c that only one argument makes is taken unseen; the product recognises `d` though the arguments need `c` before it |
| C71_complete_refuted | `intersectionSignalTA`: a letter that lasts 0 blocks the product, though the signals are equal |
| C72_returns_refuted, C72_cycle_never_returns | a cycle `a; b, 1<x<20, x:=0` in a pattern: the zone construction inside of `KMPSkipValue` never ends, so that monaa hangs before it reads anything |
| C72_unobservable_refuted | `SundaySkipValue` looks for accepting states before it follows unobservable transitions: `a+` followed by one hangs |
| C47_nested_star_refuted | `monaa '(A(B*C*)+)$'` and other repetitions of something that ends in two ways: two transitions on one letter to the state before `$`, so that the KMP preparation appends to the vector it iterates over; undefined whatever the log is |
| C72_waiting_loop_refuted | `monaa '(((AB)%(1,20))+C)$'` never returns, whatever the log is |
| C68_missed_refuted | `monaa '(A%(0,1)A%(5,6)A%(0,2))$'` prints nothing for A at 0.5, 6, 11.5, 12.5 although the last three are a match: the KMP table takes an attempt at a later position to begin at the event before it |
| C74_none_lost_refuted | an accepting state entered by a transition that repeats its character stops being accepting for its other transitions (not reachable from expressions) |
| C75_later_call_refuted | the static map of renameToEpsilonTransitions has addresses of states that are gone; after their reuse a transition becomes unobservable that should not |
| C76_zero_refuted | with 0 as the only constant the zones are abstracted so far that a guard x < 0 can be passed |
| C55_flags_refuted | zero_duration is printed and not read: the product of an automaton with its copy read back is empty |
| C68_order_refuted | std::binary_search (monaa.hh:712, 1180) expects the initial states in the order of their addresses. With a star at the beginning they are in the order of creation: if the second state of (A*B)$ has a lower address than the first one, monaa says that the pattern matches nothing and exits with 10, for every word. |
| C68_silence_refuted | A pattern that matches the empty word, (A*)$, matches every interval behind the last event; none of them is reported. |
| C78_twice_refuted | `monaa -s -e '(A\|A)+'` is undefined: the three intervals of the plus of two disjuncts become three transitions in one vector, and KMPSkipValue appends to the vector while iterating over it |
| C77_zero_refuted | `monaa -s -e 'A(B%[0,0])'` does not exit with 10 although B cannot last: the greatest constant is 0 and the zone automaton forgets that B ends at once |
| C79_never_refuted | `monaa -b` never reads the output of `ascii2bin` as the word (unless it happens to begin with the character whose code is the length mod 256): the four bytes of the number are read as the beginning of the first record |
| C79_number_refuted | `ascii2bin` is undefined (reads the indeterminate N) on every text in the format that `monaa` reads |
| C79_same_file_refuted | `ascii2bin -i f -o f` empties f and then reads it: undefined |
| C80_digits_refuted | with times below a microsecond the printed text loses matches: `(AB)$` on A at 0.0000001, B at 0.0000004 prints `-0.000000 <= t < 0.000000` |
| C79_malformed_refuted | `ascii2bin` silently writes an event with the time of the event before for a line without a number |
| C79_no_events_refuted | `ascii2bin` writes indeterminate variables when the number is positive and no event follows |
| C81_prompt_refuted | a match is not reported while an attempt at an earlier position is alive, which can last for ever even if no match is longer than 5: `((AB*C)%(<5)|B)$` on A B B B ... |
| C62_empty_plus_refuted | `()+` in signal mode: the automaton of a repetition of the empty expression accepts nothing, also inside of a sequence |
| C79_created_refuted | `ascii2bin -o f -i f` creates f, reads it as the text and is undefined, for any f that can be opened for writing, also if it does not exist yet |
| C83_lag_refuted | with a pipe as input (text mode) no match that depends on the last line is reported before the next line begins: `" %c %lf\n"` reads on until the next character that is not white space |
| C83_vector_refuted | `WordVector` reads a line without a number as an event at the time of the event before, `LazyDeque` as an event at time 0 |
| C64_blank_refuted | doc/TRE.md says that a blank is an event: the lexer skips blanks, no expression has such an event |
| C84_unreachable_refuted | removeUnreachableStates (call commented out) writes through begin() of an empty vector, undefined for every automaton with an initial state; with room it would delete the reachable states and keep the others |
| C84_together_refuted | updateConstraint (unused) keeps lower bounds as they are, isValidConstraint expects them negated |
| C85_all_doubles_refuted | clocks are compared after rounding: for times that are not on a binary grid (0.1, 2.1) a constraint x<=2 holds although the clock is more than 2 |
| C86_large_refuted | zones with bounds beyond 2^53: sums are rounded, a zone with a point is found empty |
| C85_decimal_refuted | decimal times are rounded when read: with events at 2.4 and 4.4 the constraint x<=2 fails, a match of the written word is lost |
| C50_lost_states_refuted, C50_complete_refuted | the skips lose matches in optional mode as in C30 |
| C69_nested_star_refuted | tre2ta '(b*\|a)+' prints an automaton that does not accept a a |
| C47_label_refuted | a pattern with the label 127 writes outside of the array next of the zone automaton |
| C79_overflow_refuted | ascii2bin: a number in front beyond the ints is undefined |
| C71_flags_refuted | the signal product has no pairs of states with different zeroDuration flags, and signals of both arguments are lost |
| C71_overflow_refuted | the signal product of automata with more than 256 clocks together mixes up clocks |
| C71_unobservable_refuted | the signal product lets one automaton cut a letter only when the other one is already at a state with that letter, so signals are lost when it gets there by a later unobservable transition |
| C65_conjunction_refuted | a&b\|c is read as a&(b\|c) and matches nothing |

## Per property

Statements are in `properties.jsonl`; the notes say what is missing or refuted.

### C01 Clock constraint evaluation

* Status: proved.
* Theorems: `C01_satisfy` (PropBase.v), `C01_compare` (PropBase.v), `C01_compare_total` (PropBase.v).

* Model and method: Constraint.v; case analysis against the order of the reals.

### C02 Interval intersection

* Status: partial. Exact when the two lower bounds have different values or the same strictness; no common value is ever lost; otherwise (C02_exact) exactly one value too many is in the result, the common lower end point that one operand has closed and the other one open, provided that it respects both upper ends.
* Theorems: `C02_contain` (PropBase.v), `C02_interval_intersection_partial` (PropBase.v), `C02_no_value_lost` (PropBase.v), `C02_interval_intersection_refuted` (PropBase.v), `C02_exact` (PropIvals.v).

* Model and method: Interval.v; membership semantics, witness for the false part.

### C03 Intersection of interval sets

* Status: partial. Exact under the same condition as C02 for every pair; C03_exact says which values are too many otherwise.
* Theorems: `C03_set_intersection_partial` (PropBase.v), `C03_set_intersection_refuted` (PropBase.v), `C03_exact` (PropIvals.v).

* Model and method: Interval.v; induction on the lists.

### C04 Minkowski sum of intervals

* Status: proved.
* Theorems: `C04_sum` (PropBase.v), `C04_sum_sets` (PropBase.v).

* Model and method: Interval.v; Minkowski sums, density of Q.

### C05 Kleene plus of an interval

* Status: partial. Exact for every bounded interval with 0 <= lower < upper except when both ends are open and the length goes k > 0 times into the lower end; then exactly the value k * upper is too many (C05_exact). Intervals without length are undefined behaviour (C05_point_exact).
* Theorems: `C05_kleene_plus_partial` (PropBase.v), `C05_kleene_plus_sets_partial` (PropBase.v), `C05_kleene_plus_refuted` (PropBase.v), `C05_point_interval_refuted` (PropBase.v), `C05_exact` (PropIvals.v), `C05_point_exact` (PropIvals.v).

* Model and method: Interval.v; induction on the number of summands.

### C06 Zone tightening is intersection

* Status: proved.
* Theorems: `C06_tighten` (PropBase.v), `C06_tighten_clocks` (PropBase.v), `C06_tighten_upper` (PropBase.v), `C06_tighten_lower` (PropBase.v).

* Model and method: Zone.v; Floyd-Warshall invariant and a one-dimensional Helly argument (ZoneFacts.v).

### C07 Canonicalisation

* Status: proved.
* Theorems: `C07_canonize_same_set` (PropBase.v), `C07_canonize_tightest` (PropBase.v), `C07_canonize_triangle` (PropBase.v).

* Model and method: Zone.v; as C06.

### C08 Zone satisfiability

* Status: proved.
* Theorems: `C08_satisfiable` (PropBase.v).

* Model and method: Zone.v.

### C09 Time elapse

* Status: proved.
* Theorems: `C09_elapse` (PropBase.v).

* Model and method: Zone.v.

### C10 Clock reset

* Status: proved.
* Theorems: `C10_reset` (PropBase.v).

* Model and method: Zone.v.

### C11 Abstraction only enlarges a zone

* Status: proved.
* Theorems: `C11_abstractize_enlarges` (PropBase.v), `C11_abstractize_keeps_small` (PropBase.v), `C11_abstractize_idempotent` (PropBase.v).

* Model and method: Zone.v.

### C12 makeUnsat empties a zone for good

* Status: proved. makeUnsat marks the zone for good as far as tightenings are concerned (C12_makeUnsat). Beyond the statement: a following elapse overwrites the mark (C12_makeUnsat_undone_by_elapse).
* Theorems: `C12_makeUnsat` (PropBase.v), `C12_makeUnsat_undone_by_elapse` (PropBase.v).

* Model and method: Zone.v.

### C13 Guard extraction

* Status: partial. Every listed constraint is implied by the zone (C13_guard_implied_partial), and of every clock the strongest upper bound below the greatest constant is listed (C13_upper). Refuted for lower bounds: of them only x > 0 is ever listed, and exactly when no greater bound holds (C13_lower, C13_lower_bounds_refuted).
* Theorems: `C13_guard_implied_partial` (PropBase.v), `C13_lower_bounds_refuted` (PropBase.v), `C13_upper` (PropGuard.v), `C13_lower` (PropGuard.v).

* Model and method: Zone.v. PropGuard.v: with C07_canonize_tightest, what is listed and what is not.

### C14 In-place zone intersection

* Status: partial. Refuted: the result of cwiseMin is discarded, so that values outside the argument stay. No value of the intersection is lost; the result is the intersection exactly when the left zone is inside the right one.
* Theorems: `C14_intersectionAssign_refuted` (PropBase.v), `C14_no_value_lost_partial` (PropBase.v), `C14_exact_iff_inside` (PropBase.v).

* Model and method: Zone.v.

### C15 Zone equality

* Status: partial. Reflexive and symmetric also with entries that are -infinity (C15_reflexive_all, C15_symmetric_all). Equal zones denote the same set when not marked in the corner; refuted with makeUnsat.
* Theorems: `C15_equal_same_set_partial` (PropBase.v), `C15_reflexive` (PropBase.v), `C15_symmetric` (PropBase.v), `C15_equal_same_set_refuted` (PropBase.v), `C15_reflexive_all` (PropFresh.v), `C15_symmetric_all` (PropFresh.v).

* Model and method: Zone.v.

### C16 Membership test

* Status: proved.
* Theorems: `C16_isMember` (PropTA.v).

* Model and method: TA.v; induction on words, for all runs.

### C17 Deep copy

* Status: proved.
* Theorems: `C17_deepCopy` (PropTA.v).

* Model and method: TA.v; bijection of states.

### C18 Product automaton

* Status: partial. Observable languages for same zeroDuration flags and at most 256 clocks in total; both restrictions are shown necessary by refutations. C18_inputs: the arguments, which the products change, keep their languages. C18_exact says what is accepted for any flags: the words of joint runs in which both automata are in states with the same flag at every moment; C18_sound: never more than both languages.
* Theorems: `C18_inputs` (PropInterSig.v), `C18_exact` (PropProd.v), `C18_sound` (PropProd.v), `C18_product_partial` (PropTA.v), `C18_product_words_partial` (PropTA.v), `C18_product_zeroDuration_refuted` (PropTA.v), `C18_product_overflow_refuted` (PropTA.v).

* Model and method: Intersection.v; the product is characterised state by state, then induction on runs.

### C19 Re-rooting the product

* Status: proved.
* Theorems: `C19_reroot` (PropTA.v).

* Model and method: Intersection.v.

### C20 Zone graph simulates every run

* Status: proved. Simulation and emptiness for strictly increasing time stamps and at most 255 clocks.
* Theorems: `C20_simulation` (PropZA.v), `C20_empty` (PropZA.v).

* Model and method: ZA.v; breadth-first invariant, simulation of runs by zones.

### C21 Zone graph construction terminates

* Status: partial. Refuted: the abstraction forgets only large upper bounds, lower bounds grow for ever (exDiv). C21_cycle_diverges says it in general: a reachable cycle that waits for x and resets x, next to a clock that it does not reset, is enough, with or without upper bounds. Terminates for automata without cycles (C21_termination_acyclic_partial), for automata whose only cycles are loops without guards and resets (C21_termination_idle_partial), and for automata whose cycles have no lower bounds above 0, whatever they reset (C21_termination_mild_partial; all the automata shipped in examples/ are such).
* Theorems: `C21_termination_idle_partial` (PropTerm.v), `C21_termination_mild_partial` (PropTerm.v), `C21_cycle_diverges` (PropTerm.v), `C21_termination_refuted` (PropZA.v), `C21_termination_acyclic_partial` (PropZA.v).

* Model and method: ZA.v; measure on automata whose only cycles are idle loops (ZATerm.v); finitely many zones when nothing is waited for on cycles (ZAFin.v: integer entries, bounded above by the abstraction and below by a small valuation in every zone); explicit infinite sequences of zones for cycles that wait (ZADiv.v).

### C22 Emptiness check of zone automata

* Status: proved.
* Theorems: `C22_empty` (PropZA.v).

* Model and method: ZA.v.

### C23 Epsilon closure

* Status: proved.
* Theorems: `C23_epsilonClosure` (PropZA.v).

* Model and method: ZA.v.

### C24 Dead state removal keeps only useful states

* Status: proved. C24_kept_inside: the kept states are reachable and productive through kept states alone, and nothing is added.
* Theorems: `C24_kept_inside` (PropTerm.v), `C24_removeDeadStates` (PropZA.v).

* Model and method: ZA.v; invariant of the search (ZALive.v).

### C25 Dead state removal loses no useful state

* Status: partial. Refuted: states only productive through a state that is still being explored are dropped. Exact when every cycle of the zone automaton is a self-loop, or when from every productive state the last useful edge goes down in a ranking (C25_last_partial). On the timed automaton: when its cycles are self-loops without guards and resets (C25_automaton_partial), and with longer cycles without guards and resets when the transitions that go round stand before those that leave (C25_rounds_partial). With cycles that are restricted in time: when the clocks never prevent a transition and another useful transition stands behind the ones that do not go down (C25_exits_partial).
* Theorems: `C25_automaton_partial` (PropExact.v), `C25_rounds_partial` (PropExact.v), `C25_exits_partial` (PropExact.v), `C25_complete_refuted` (PropZA.v), `C25_complete_partial` (PropZA.v), `C25_last_partial` (ZALast.v).

* Model and method: ZA.v; depth-first invariants. ZAIdle.v: no configuration is found twice, so that idle self-loops stay self-loops. ZALast.v: the last useful edge is explored first. ZACong.v, ZAOrder.v, ZALoop.v: the edges of the zone automaton are in the order of the transitions, and what leaves a quiet cycle elsewhere also leaves it here. ZASupple.v: every path of such an automaton is a run, so that usefulness is seen on the timed automaton and the last useful edge goes down.

### C26 Sunday table: shortest length

* Status: proved. Proved for automata whose zone automaton loses no useful state (the quantifier of the property; automatic for automata without cycles but idle self-loops) and words without unobservable events. Also, when the constructor gives up with exit(10), no word is accepted (C26_exit). The other side: m is the length of some accepted word and every character recorded occurs at its place in one (C26_attained, C26_chars); so without unobservable transitions the table is determined by the words (C26_exact). Refuted outside of it: lost states, unobservable transitions into accepting states.
* Theorems: `C26_exit` (PropExact.v), `C26_attained` (PropReal.v), `C26_chars` (PropReal.v), `C26_exact` (PropReal.v), `C26_shortest` (PropSkip.v), `C26_shortest_acyclic` (PropSkip.v), `C26_lost_states_refuted` (PropSkipEx.v), `C26_unobservable_refuted` (PropSkipEx.v), `C26_unobservable_exit_refuted` (PropSkipEx.v).

* Model and method: Skip.v; levels of the zone automaton; PropExact.v for exit(10).

### C27 Sunday table: shifts are safe

* Status: proved. Both shifts, for patterns whose zone automaton loses no useful state (automatic without cycles), words with increasing time stamps over bytes 1..126 except '$'. Refuted for a(cd)*b where a useful state is lost.
* Theorems: `C27_end` (PropSkip.v), `C27_delta` (PropSkip.v), `C27_length` (PropSkip.v), `C27_lost_states_refuted` (PropSkipEx.v).

* Model and method: Skip.v, Sunday.v, Kmp.v.

### C28 KMP table: shifts are safe

* Status: partial. Safe for matches beginning at an event time, and for all matches when upper bounds constrain only clocks that were reset. Refuted otherwise: widen removes lower instead of upper bounds.
* Theorems: `C28_shift_partial` (PropSkip.v), `C28_shift_event_partial` (PropSkip.v), `C28_shift_refuted` (PropSkipEx.v).

* Model and method: Skip.v, KmpRun.v, KmpSafe.v; product simulation.

### C29 Reported zones are sound (patterns with $)

* Status: proved. For monaaDollar on both containers. With unobservable transitions the code reports nothing, so nothing unsound.
* Theorems: `C29_sound` (PropMonaa.v), `C29_sound_online` (PropMonaa.v).

* Model and method: Monaa.v; loop invariants relating configurations to runs (MonaaVec.v), refinement to the other containers (MonaaSim.v).

### C30 No match is missed (patterns with $)

* Status: partial. Every match with an event is reported under the same conditions as C27 and C28, for both containers; refuted without them, and for matches without events.
* Theorems: `C30_complete_partial` (PropSkip.v), `C30_complete_event_partial` (PropSkip.v), `C30_lost_states_refuted` (PropSkipEx.v), `C30_complete_refuted` (PropSkipEx.v), `C30_no_event_refuted` (PropSkipEx.v).

* Model and method: As C29 with the table theorems.

### C31 Reported zones are non-empty and tight

* Status: proved.
* Theorems: `C31_nonempty_signal` (PropModes.v), `C31_nonempty_optional` (PropModes.v), `C31_nonempty` (PropMonaa.v), `C31_tight` (PropMonaa.v).

* Model and method: As C29.

### C32 Matching terminates and advances

* Status: partial. Given that the tables were built (their construction may diverge, C21). Input bytes must be below 127: byte 127 reads outside of the delta array (refuted).
* Theorems: `C32_terminates_signal` (PropModes.v), `C32_terminates_optional` (PropModes.v), `C32_terminates` (PropMonaa.v), `C32_advances` (PropMonaa.v), `C32_byte127_refuted` (PropMonaa.v).

* Model and method: As C29; measure on the position.

### C33 Signal/event matching without $: soundness

* Status: proved. For the branch without unobservable transitions, on both containers (C36_signal).
* Theorems: `C33_sound` (PropModes.v).

* Model and method: As C29.

### C34 Signal/event matching without $: completeness

* Status: partial. Every match beginning at a position not passed over by a table is reported; the Sunday shifts never lose a match; nothing is lost by the KMP shifts when transitions into accepting states have no upper bounds (and the C28 condition). Refuted otherwise: the KMP table does not know that the accepting event may be moved forward.
* Theorems: `C34_examined` (PropModes.v), `C34_sunday` (PropModes.v), `C34_complete_partial` (PropModes.v), `C34_kmp_refuted` (PropModesEx.v).

* Model and method: As C29.

### C35 Optional-$ matching is sound

* Status: partial. Refuted: the lower bound of the end is {t,true} instead of {-t,true}, so ends earlier than the event are reported. C35_exact says exactly which pairs are too many: a zone has only matches, or it belongs to an event at time u and consists of the pairs (t,t') with t<=t'<=u where (t,u) is a match. Every reported pair does begin a match ending at t' or later, and every zone contains a match.
* Theorems: `C35_sound_partial` (PropModes.v), `C35_exact` (PropModes.v), `C35_sound_refuted` (PropModesEx.v).

* Model and method: As C29.

### C36 Online reading equals offline reading

* Status: proved.
* Theorems: `C36_monaa` (PropEpsSim.v), `C36_signal` (PropModes.v), `C36_optional` (PropModes.v), `C36_online_offline` (PropMonaa.v), `C36_online_no_throw` (PropMonaa.v).

* Model and method: Word.v; simulation of containers.

### C37 Lazy deque is a window on the input

* Status: proved.
* Theorems: `C37_fetch` (PropMonaa.v), `C37_at` (PropMonaa.v), `C37_at_fetched` (PropMonaa.v).

* Model and method: Word.v.

### C38 Lazy deque reports the word length

* Status: partial. C38_unknown/C38_exact: the size is unknown until a fetch misses; from then on it is the maximum of the length of the word and of the front at that time, for ever. So it is right iff the front was inside of the word (C38_right_iff); refuted after setFront past the end.
* Theorems: `C38_unknown` (PropIvals.v), `C38_exact` (PropIvals.v), `C38_right_iff` (PropIvals.v), `C38_size_partial` (PropMonaa.v), `C38_size_refuted` (PropMonaa.v).

* Model and method: Word.v.

### C39 Textual input reading

* Status: partial. Every spelling of a word with decimal numbers is read as the word, reading ends on every input, binary input is read record by record. Refuted for malformed lines: they become events at time 0. inf/nan/hexadecimal numbers are not modelled.
* Theorems: `C39_blanks` (PropFresh.v), `C39_wellformed` (PropText.v), `C39_terminates` (PropText.v), `C39_case` (PropText.v), `C39_malformed_refuted` (PropText.v), `C39_binary` (PropText.v).

* Model and method: Text.v; induction on characters.

### C40 Constraint text round trip

* Status: partial. Round trip for single constraints and non-empty lists; accepted texts are exactly spellings. Refuted: empty lists, ResetVars printing, clocks above 255, truncated lists (undefined).
* Theorems: `C40_constraint` (PropText.v), `C40_guard` (PropText.v), `C40_resets` (PropText.v), `C40_accepted` (PropText.v), `C40_terminates` (PropText.v), `C40_empty_refuted` (PropText.v), `C40_resetVars_refuted` (PropText.v), `C40_wrap_refuted` (PropText.v), `C40_truncated_refuted` (PropText.v).

* Model and method: Text.v; induction on digits and lists.

### C41 Clock count of a parsed automaton covers every clock used

* Status: partial. Guards, maxConstraints and language exact. Refuted for resets: a clock that is only reset is not counted; well-formedness proved when every reset clock is at most some guard clock.
* Theorems: `C41_language` (PropText.v), `C41_guards` (PropText.v), `C41_max` (PropText.v), `C41_wf_partial` (PropText.v), `C41_resets_refuted` (PropText.v).

* Model and method: Text.v (convBoostTA).

### C42 TRE translation: atoms, disjunction, concatenation, plus, conjunction, time restriction

* Status: partial. Exact language for the fragment 'ok': plus only over expressions whose automaton has no zero-duration jumps into an inner start state, conjunction only without unobservable steps, and restriction with integer bounds over non-empty words; outside of it each operator is refuted by witness. End to end with monaaDollar: everything reported is a match of the expression, and every match is reported under the C30 conditions.
* Theorems: `C42_language_partial` (PropTre.v), `C42_restriction_partial` (PropTre.v), `C42_clocks` (PropTre.v), `C42_plus_collapse` (PropTre.v), `C42_star` (PropTre.v), `C42_plus_refuted` (PropTre.v), `C42_conjunction_refuted` (PropTre.v), `C42_restriction_refuted` (PropTre.v), `C42_restriction_extra_refuted` (PropTre.v), `C42_matches` (PropTre.v), `C42_reported_sound` (PropTre.v), `C42_reported_complete_partial` (PropTre.v).

* Model and method: Tre.v; structural induction on expressions with the language of the built automaton as invariant.

### C43 One-sided time restrictions

* Status: partial. Refuted for lower-only restrictions (toEventTA is undefined: the infinite upper bound is converted to int); exact for upper-only ones in the same fragment as C42.
* Theorems: `C43_lower_only_refuted` (PropTre.v), `C43_upper_only_partial` (PropTre.v).

* Model and method: Tre.v.

### C44 Stuck state removal

* Status: partial. removeStuckStates keeps the language; reduceStates removes dead branches when no label has an empty edge list, refuted otherwise.
* Theorems: `C44_language` (PropTre.v), `C44_reduce` (PropTre.v), `C44_reduce_empty_key_refuted` (PropTre.v).

* Model and method: Tre.v.

### C45 Epsilon branch of monaa: resets on unobservable edges

* Status: partial. Refuted: a reset on an unobservable transition stores the clock number 0, so the clock is measured from time 0 (witness exR: a pair is reported that is no match). With the variable newClock assigned, the results are matches (C45_fixed_partial). Patterns whose unobservable transitions reset nothing: C57.
* Theorems: `C45_fixed_partial` (PropEps.v), `C45_reset_refuted` (PropEpsEx.v).

* Model and method: EpsZone.v; witness, and the repaired variant by the same invariant as C57.

### C46 Answer counting

* Status: proved. For AnsVec, the counter and the printer.
* Theorems: `C46_vec` (PropText.v), `C46_count` (PropText.v), `C46_printer` (PropText.v).

* Model and method: Ans.v.

### C47 Undefined behaviour freedom of the KMP table construction

* Status: partial. No undefined operation when edges into accepting states stand last in their vectors; refuted otherwise (append while iterating), also from monaaDollar. From the text of a pattern: monaa is defined for every pattern x$ with upper bounds of at least 1 in which nothing that may match the empty word is repeated or restricted and no star stands directly below or behind & (predicate tame; C47_event_defined_partial; the outcomes are printed lines, the message that nothing matches, or no end). Refuted with stars inside of a repetition: C47_nested_star_refuted. Labels from CHAR_MAX on (DOT patterns): no table is ever made of a pattern that can read such a byte (C47_labels), and the program is undefined (C47_label_refuted).
* Theorems: `C47_event_defined_partial` (PropEvent.v), `C47_nested_star_refuted` (PropEvent.v), `C47_kmp_defined_partial` (PropSkipEx.v), `C47_append_refuted` (PropSkipEx.v), `C47_append_monaa_refuted` (PropSkipEx.v), `C47_labels` (PropTextEx.v), `C47_label_refuted` (PropTextEx.v).

* Model and method: Skip.v, KmpUB.v; TreMild.v (at most one transition of each list of a built automaton leads to an accepting state) and PropEvent.v.

### C48 Interval mode and matrix mode agree

* Status: proved. After the first alloc, any sequence of guards, events, updates and further allocs gives zones that are satisfiable together and denote the same pairs. The state with one interval cannot be a matrix in the code (a matrix has a newest clock of at least 2).
* Theorems: `C48_same` (PropEps.v).

* Model and method: EpsZone.v; both representations refine the same set of valuations.

### C49 Signal-mode normal form terminates

* Status: partial. Without conjunctions the translation ends; with a conjunction anywhere it never returns (the inner loop over a conjunction does not advance), a&b uses up any fuel.
* Theorems: `C49_conjunction_never_returns` (PropSignal.v), `C49_terminates_refuted` (PropSignal.v), `C49_terminates_partial` (PropSignal.v).

* Model and method: Signal.v; objects that reach a conjunction are never changed (SignalTerm.v); ranks of objects for termination.

### C50 Optional-$ matching misses nothing

* Status: partial. Under the conditions of C30. Refuted without them by the patterns of C30: the Sunday sets lose states (C50_lost_states_refuted), and a KMP shift jumps over a match when an upper bound is on a clock that is never reset (C50_complete_refuted).
* Theorems: `C50_complete_partial` (PropModes.v), `C50_lost_states_refuted` (PropModesEx.v), `C50_complete_refuted` (PropModesEx.v).

* Model and method: As C30.

### C51 Automata built from expressions have only useful states

* Status: partial. Only: every non-accepting state has a successor and targets are states of the automaton. Refuted: unreachable and dead states remain.
* Theorems: `C51_states_partial` (PropTre.v), `C51_unreachable_refuted` (PropTre.v), `C51_dead_refuted` (PropTre.v).

* Model and method: Tre.v.

### C52 cutVars is the projection onto the kept clocks

* Status: proved. For canonical zones (the quantifier of the property); more values for others (C52_not_canonical_refuted).
* Theorems: `C52_size` (PropMore.v), `C52_projection` (PropMore.v), `C52_not_canonical_refuted` (PropMore.v), `C52_case` (PropMore.v).

* Model and method: Zone.v.

### C53 widen forgets exactly the lower bounds of a guard

* Status: proved.
* Theorems: `C53_kept` (PropMore.v), `C53_meaning` (PropMore.v).

* Model and method: Skip.v.

### C54 Printed inequalities denote the zone

* Status: proved. Decimal rendering of the numbers: C80.
* Theorems: `C54_meaning` (PropText.v).

* Model and method: Ans.v.

### C55 DOT output read back keeps the language

* Status: partial. At the level of vertices, edges and attribute strings; the DOT syntax (boost graphviz reader) is trusted. Refuted for null targets (throws) and for zero_duration, which is printed but not read (C55_flags_lost, C55_flags_refuted).
* Theorems: `C55_flags_lost` (PropFresh.v), `C55_flags_refuted` (PropFresh.v), `C55_round_trip` (PropText.v), `C55_null_refuted` (PropText.v), `C55_case` (PropText.v).

* Model and method: Text.v.

### C56 Event mode from bytes to printed lines

* Status: proved. For a given automaton; option parsing is not part of it.
* Theorems: `C56_sound` (PropText.v), `C56_count` (PropText.v), `C56_case` (PropText.v).

* Model and method: Text.v, Ans.v, Monaa.v composed.

### C57 monaa() reports only matches, unobservable transitions included

* Status: proved. On the vector container; the lazy one gives the same by C36_monaa.
* Theorems: `C57_sound` (PropEps.v), `C57_nonempty` (PropEps.v).

* Model and method: EpsZone.v; invariant `einv` in EpsRun.v relates a configuration to runs.

### C58 monaa() terminates on finite words

* Status: partial. Terminates when the unobservable transitions form no cycle; refuted with an unobservable self-loop: the loop never ends, whatever the fuel.
* Theorems: `C58_terminates_partial` (PropEps.v), `C58_terminates_refuted` (PropEpsEx.v).

* Model and method: EpsZone.v; rank of states; a configuration that survives every round.

### C59 monaa() reports the matches at the positions it examines, unobservable transitions included

* Status: partial. Every match whose unobservable steps are strictly later than the events before them is reported unless a table passes over its position. Refuted for steps at the very time of the event before them.
* Theorems: `C59_examined_partial` (PropEps.v), `C59_complete_refuted` (PropEpsEx.v).

* Model and method: EpsZone.v; coverage of runs by configurations.

### C60 monaa() can be called for several patterns

* Status: partial. Refuted: zeroResetTime is a function-local static, so a later pattern with more clocks reads outside of the vector (C60_second_call_refuted). Proved: a later pattern with no more clocks than the first, or without unobservable transitions, gives what it gives in a process of its own (C60_no_more_clocks_partial, C60_observable_partial). A guard is enough, no reset is needed (C60_guard_refuted).
* Theorems: `C60_second_call_refuted` (PropEpsEx.v), `C60_guard_refuted` (PropEpsEx.v), `C60_no_more_clocks_partial` (PropStaticVec.v), `C60_observable_partial` (PropStaticVec.v).

* Model and method: EpsZone.v: the length of the static vector is a parameter of monaa; configurations with a longer vector are related to those with the exact one (PropStaticVec.v).

### C61 Signal mode does not depend on the separation code

* Status: proved. The separation code is a parameter of the model; the result is the same for all values of it.
* Theorems: `C61_separation_is_dead` (PropSignal.v).

* Model and method: Signal.v; invariant on the decisions stored in the heap (SignalFacts.v).

### C62 Signal mode recognises the signals of the expression

* Status: partial. Refuted in general: singletons shared between disjuncts are changed in place; a restriction over a sequence measures only what follows its first segment (C62_restriction: exactly that, for every automaton); (a%(1,2))+ accepts duration 2. Proved on a fragment (no conjunction, no empty word, only one letter restricted or iterated, no disjunct whose merged letter is shared; integer bounds all closed or all open below): the accepted words are the words of the expression with equal neighbours merged; exact for signals when no word repeats a letter at once. Missing: sequences under a restriction or plus, mixed bounds, and the difference that letters lasting 0 make when neighbours are merged. Repetitions of the empty expression give the empty automaton (C62_empty_plus_refuted).
* Theorems: `C62_aliasing_accepts_refuted` (PropSignal.v), `C62_aliasing_misses_refuted` (PropSignal.v), `C62_within_sequence_accepts_refuted` (PropSignal.v), `C62_within_sequence_misses_refuted` (PropSignal.v), `C62_plus_refuted` (PropSignal.v), `C62_words_partial` (PropSignal2.v), `C62_signals_partial` (PropSignal2.v), `C62_exact_partial` (PropSignal2.v), `C62_restriction` (PropSignal7.v), `C62_empty_plus_refuted` (PropSignal8.v).

* Model and method: Signal.v; specification in SignalSpec.v.

### C63 Signal mode has defined behaviour

* Status: partial. Refuted: the empty expression in a sequence, plus over a sequence of two letters, a restriction without upper bound over a sequence. Proved: on the fragment of C62, with only unrestricted letters iterated and fewer than 32 disjuncts below a plus, a well-formed automaton with at most one clock is returned. Every plus that the normal form leaves is undefined if its argument has a word with an event (C63_plus_undefined), and otherwise does nothing (C63_plus_nothing).
* Theorems: `C63_empty_refuted` (PropSignal.v), `C63_plus_refuted` (PropSignal.v), `C63_within_infinite_refuted` (PropSignal.v), `C63_returns_partial` (PropSignal2.v), `C63_plus_undefined` (PropSignal8.v), `C63_plus_nothing` (PropSignal8.v).

* Model and method: Signal.v; undefined behaviour is an outcome of the model.

### C64 Texts of expressions are read by the grammar

* Status: partial. Only exception: a number that does not fit an int is undefined behaviour (atoi). The events of an expression are letters of its text (C64_letters); a blank is not an event, although doc/TRE.md says so (C64_blank_refuted).
* Theorems: `C64_sound` (PropParse.v), `C64_complete` (PropParse.v), `C64_errors` (PropParse.v), `C64_decides` (PropParse.v), `C64_number_refuted` (PropParse.v), `C64_letters` (PropParse.v), `C64_blank_refuted` (PropParse.v).

* Model and method: Parse.v (lexer and stack machine of the grammar); grammar and meaning of trees in ParseSpec.v; simulation of the stack by partial trees (ParseFacts.v).

### C65 Operators have their usual precedence

* Status: partial. Refuted for concatenation: ab|c is read as a(b|c) (C65_precedence_refuted), and for conjunction: a&b|c is read as a&(b|c), which matches nothing (C65_conjunction_refuted). Proved for trees in which an operand left of | or & is a single item or in parentheses (left_items), which is everything else. Exactly: every text is read with postfix operators first and concatenation, & and | alike from the right (C65_exact).
* Theorems: `C65_precedence_refuted` (PropParse.v), `C65_conjunction_refuted` (PropParse.v), `C65_usual_partial` (PropParse.v), `C65_exact` (PropParse.v), `C65_spelling_independent` (PropParse.v).

* Model and method: Parse.v; normal forms that the shift-first machine rebuilds (ParseFacts.v).

### C66 Parentheses determine the reading

* Status: proved.
* Theorems: `C66_parenthesised` (PropParse.v).

* Model and method: Same.

### C67 Exit statuses of monaa

* Status: partial. Refuted: a pattern that matches without an event ends with status 10, a missing pattern with status 0, a bad guard in a DOT file with an uncaught exception.
* Theorems: `C67_version` (PropMain.v), `C67_usage` (PropMain.v), `C67_option_error` (PropMain.v), `C67_parse_error` (PropMain.v), `C67_word_file` (PropMain.v), `C67_statuses` (PropMain.v), `C67_status_refuted` (PropMain.v), `C67_missing_pattern_refuted` (PropMain.v), `C67_guard_error_refuted` (PropMain.v).

* Model and method: Main.v; case analysis.

### C68 From text to printed lines

* Status: partial. Sound for expressions in the fragment ok (through C42); the complete half has the side conditions of the skip tables (C30). From the texts alone: C68_exact_partial says for a fragment of the patterns (+ and * over anything that is not empty, without restrictions, or restricted so that no time has to pass; no * at the beginning) that monaa returns, prints only matches, all that begin at an event, all of them if nothing at the beginning is restricted in time (C68_iff_partial), and exits with 10 only if there is none. When the addresses of states increase in the order of their creation, stars and choices at the beginning are covered too (C68_rising_partial, C68_rising_iff_partial); with decreasing addresses (A*B)$ is said to match nothing (C68_order_refuted). Nothing that begins at or behind the last event is reported (C68_until_last, C68_silence_refuted). Refuted from the texts with a restriction at the beginning: C68_missed_refuted. The model prints exactly the outputs expected by examples/integrated_test.sh; two examples of the documentation are refuted.
* Theorems: `C68_exact_partial` (PropExact.v), `C68_rising_partial` (PropExact.v), `C68_iff_partial` (PropExact.v), `C68_sound` (PropMain.v), `C68_meant_partial` (PropMain.v), `C68_no_dollar` (PropMain.v), `C68_complete_partial` (PropMain.v), `C68_documented_conjunction_refuted` (PropMain.v), `C68_documented_without_dollar_refuted` (PropMain.v), `C68_missed_refuted` (PropMissed.v), `C68_rising_iff_partial` (PropStart.v), `C68_until_last` (PropStart.v), `C68_order_refuted` (PropStart.v), `C68_silence_refuted` (PropStart.v).

* Model and method: Main.v over Parse.v, Tre.v, Ans.v; composition of C64, C42, C30, C36; TreConsts.v for the size of constants; TreLean.v (initial states in order, idle self-loops, clocks bounded only after a reset), TreLoop.v (in the automata of expressions the transitions that go round stand before those that leave) and PropExact.v for the theorem without side conditions on automata or tables. TreOrder.v: with increasing addresses the initial states are in order; PropStart.v. TreSupple.v: the automata of expressions with timed loops are pliant and have their exits behind the ways round.

### C69 tre2ta prints an automaton of the expression

* Status: partial. Language for expressions in which every restriction has an upper bound and no star stands directly below a repetition, a restriction or & or directly behind & (starsafe); the rest is covered by C42. Refuted without that: the automaton that tre2ta prints for (b*|a)+ does not accept the word a a (C69_nested_star_refuted).
* Theorems: `C69_language_partial` (PropMain.v), `C69_statuses` (PropMain.v), `C69_nested_star_refuted` (PropTextEx.v).

* Model and method: Main.v over Parse.v, Tre.v, Text.v; composition of C64, C42, C41.

### C70 Signal mode from text to printed lines

* Status: partial. For the fragment of C62: every printed block is satisfiable, and its solutions are segments of the input signal that the expression describes, up to letters that last 0 (C70_printed_partial, from the texts on). Conversely every segment is a match of the automaton (C70_complete_partial) and is printed if it begins where no table skips (C70_found_partial). Refuted without that condition: C70_missed_refuted is a run of monaa -s whose output lacks a segment because of a KMP shift. Binary input: C82_same. Missing: expressions outside the fragment.
* Theorems: `C70_sound_partial` (PropSignal3.v), `C70_complete_partial` (PropSignal3.v), `C70_printed_partial` (PropSignal3.v), `C70_found_partial` (PropSignal3.v), `C70_missed_refuted` (PropSignal4.v).

* Model and method: Main.v over Parse.v, Signal.v, Skip.v, Ans.v; composition of C62, C33, C34, C36, C54; segments are defined on the signal of the input, without automata (PropSignal3.v).

### C71 The signal product recognises the signals of both arguments

* Status: partial. Complete for words whose letters all last (C71_complete_partial) and for common words (C71_common_words_partial); sound when a state has one letter and accepting states have none (C71_sound_partial), which is the shape that toSignalTA gives to chains. Without these conditions refuted: C71_sound_refuted, C71_complete_refuted. Refuted with unobservable transitions in an argument (C71_unobservable_refuted; C71_common_words_partial has them), with different zeroDuration flags (C71_flags_refuted) and with more than 256 clocks (C71_overflow_refuted).
* Theorems: `C71_flags` (PropFresh.v), `C71_common_words_partial` (PropInterSig.v), `C71_complete_partial` (PropInterSig.v), `C71_sound_partial` (PropInterSig.v), `C71_sound_refuted` (PropInterSig.v), `C71_complete_refuted` (PropInterSig.v), `C71_flags_refuted` (PropInterSig.v), `C71_overflow_refuted` (PropInterSig.v), `C71_unobservable_refuted` (PropInterSig.v).

* Model and method: IntersectionSignal.v models the function; a run of the product is split into, and merged from, runs of the arguments over words with the same signal (PropInterSig.v).

### C72 monaa returns

* Status: partial. Refuted: a cycle that waits for a clock and resets it makes the KMP table of the pattern infinite (C72_returns_refuted with 1 < x < 20, in general C72_cycle_never_returns; from the text of a pattern C72_waiting_loop_refuted); a loop before an unobservable transition into an accepting state makes the loop of SundaySkipValue infinite (C72_unobservable_refuted). Proved for patterns without unobservable transitions whose cycles have no lower bounds above 0 (with resets; examples/TA/timed.dot is C72_case_cycle), in the three modes. From the text: C72_event_returns_partial, for the patterns x$ of C47_event_defined_partial without positive lower bounds below a + or *.
* Theorems: `C72_event_returns_partial` (PropEvent.v), `C72_waiting_loop_refuted` (PropEvent.v), `C72_returns_partial` (PropTerm.v), `C72_returns_signal_partial` (PropTerm.v), `C72_returns_optional_partial` (PropTerm.v), `C72_cycle_never_returns` (PropTerm.v), `C72_returns_refuted` (PropTerm.v), `C72_unobservable_refuted` (PropTerm.v).

* Model and method: KmpTerm.v: the three automata of a step of KMPSkipValue do not wait on cycles when the pattern does not; fuel is monotone (SundayTerm.v). KmpHang.v: a run of A0 x As into the cycle, then ZADiv.v. TreMild.v and PropEvent.v: by induction on the expression.

### C73 Fresh zones

* Status: proved. The cached zones are part of this model; negative sizes are not.
* Theorems: `C73_zero` (PropFresh.v), `C73_universal` (PropFresh.v), `C73_forgets` (PropFresh.v), `C73_cache` (PropFresh.v).

* Model and method: PropFresh.v: the matrices read as sets of valuations; the static zones as a state passed from call to call. Also that abstractize without setting M drops every constraint that is not negative.

### C74 Renaming to unobservable transitions

* Status: partial. C74_words says exactly which words are accepted, for every automaton. As stated it holds when accepting states have no transitions (C74_final, C74_none_lost), which is the case for all automata of toSignalTA (C74_before). Refuted otherwise: an accepting state entered both by a repeating and another transition loses the words of the other one.
* Theorems: `C74_words` (PropRename.v), `C74_final` (PropRename.v), `C74_none_lost` (PropRename.v), `C74_none_lost_refuted` (PropRename.v), `C74_before` (PropStatic.v).

* Model and method: PropRename.v: the edges and accepting states of the result; runs with hidden events as an inductive relation of their own.

### C75 Several expressions in signal mode

* Status: partial. Proved for the first call of a process; for later calls, only that the result is well formed and that no unobservable transition leads into an accepting state. The language is refuted for later ones: the static map is indexed by addresses of states that may be gone.
* Theorems: `C75_first_call` (PropStatic.v), `C75_flags` (PropStatic.v), `C75_later_call_refuted` (PropStatic.v), `C75_any_map` (RenameAny.v).

* Model and method: Rename.v: the loops with the static map as state; PropStatic.v: a map that agrees with the keys changes nothing (C75_first_call), so the simpler model of Signal.v is the first call. RenameAny.v: for any map, the result is well formed and no unobservable transition leads into an accepting state (C75_any_map).

### C76 The zone automaton has no other words

* Status: partial. Proved when some element of maxConstraints is positive (C76_paths, C76_untimed, C76_empty_iff). Refuted when the only constant is 0: a guard x < 0 is then ignored.
* Theorems: `C76_paths` (PropReal.v), `C76_untimed` (PropReal.v), `C76_empty_iff` (PropReal.v), `C76_zero_refuted` (PropReal.v).

* Model and method: ZAExact.v: backward along a path, every valuation of an abstracted zone agrees with a reachable one on the clocks that are at most the maximal constant; PropReal.v.

### C77 The message that the pattern matches nothing is right

* Status: partial. Event mode: for the patterns of C68_exact_partial without intervals written backwards. Signal mode: for the fragment of C78 without upper bounds 0. Refuted with the upper bound 0: monaa -s -e 'A(B%[0,0])' does not say that the pattern is empty.
* Theorems: `C77_message_partial` (PropEmpty.v), `C77_signal_partial` (PropSignal6.v), `C77_signal_exact_partial` (PropSignal6.v), `C77_zero_refuted` (PropSignal6.v).

* Model and method: PropEmpty.v: from C26 (SundaySkipValue gives up only on automata without words; what it computes is attained, C76) and TreKnown.v (the constants of the guards are known to the zone automaton), through C42 to the text of the pattern. SignalKnown.v and PropSignal6.v: the same for signal mode, through C62.

### C78 Signal mode returns

* Status: partial. For the fragment of C63_returns_partial, when moreover the last letter of every disjunct does not come from an iteration of several disjuncts; refuted without that: (A|A)+ has three transitions into the accepting state in one vector, to which the constructor of the KMP table appends while iterating over it.
* Theorems: `C78_returns_partial` (PropSignal5.v), `C78_twice_refuted` (PropSignal5.v).

* Model and method: Modelled (Signal.v, Skip.v, Main.v). SignalLast.v: by induction over the disjuncts, the automaton has no cycles (every transition goes to a state that was allocated later) and transitions into accepting states are alone in their vectors if the last letter of each disjunct has at most one interval; then C63 (the translation returns), C72 (the tables and the loop end) and C36 (the lazy container changes nothing).

### C79 ascii2bin writes the events of the text, and monaa -b can read them

* Status: partial. Refuted as written: monaa -b takes the number in front for an event (C79_never_refuted), a text without number or without events is undefined (C79_number_refuted, C79_no_events_refuted), -i f -o f empties f first (C79_same_file_refuted), also when -o f comes first and f does not exist yet (C79_created_refuted), a line without number becomes an event at the time of the event before (C79_malformed_refuted). C79_converted covers every number, including too large ones; C79_options every list of options. A number in front that is no int is undefined (C79_overflow_refuted). With the eight bytes that fwrite writes of a double (enc64, Enc.v), the records alone are read back by monaa -b as the same letters with times rounded to the nearest double, unchanged if they are doubles (C79_records); so is, behind its first four bytes, the file that ascii2bin makes of a text (C79_rounded).
* Theorems: `C79_converted` (PropBin.v), `C79_exact` (PropBin.v), `C79_without_number` (PropBin.v), `C79_binary_refuted` (PropBin.v), `C79_never_refuted` (PropBin.v), `C79_overflow_refuted` (PropBin.v), `C79_number_refuted` (PropBin.v), `C79_files` (PropBin.v), `C79_no_events_refuted` (PropBin.v), `C79_options` (PropBin.v), `C79_malformed_refuted` (PropBin.v), `C79_missing` (PropBin.v), `C79_same_file_refuted` (PropBin.v), `C79_created_refuted` (PropBin.v), `C79_records` (PropDouble.v), `C79_rounded` (PropDouble.v).

* Model and method: Bin.v models ascii2bin with an abstract encoding of doubles; PropBin.v: induction on the rendering of the word (TextFacts.rendered), the reader by C39_binary.

### C80 The printed text says exactly what the matches are

* Status: partial. Doubles are exact rationals here: the printed digits of a double are those of the exact value of the computation. The sign of a zero (-0.000000) is not modelled; all theorems hold for all signs. C80_text_partial has the restrictions on patterns of C68_iff_partial. With more than six decimals the text may hide matches (C80_digits_refuted). C80_documented: the bytes in examples/integrated_test.sh. Signal mode: C80_signal_partial and C80_segments_partial, for the fragment of C70.
* Theorems: `C80_read` (PropPrint.v), `C80_printed` (PropPrint.v), `C80_exact` (PropPrint.v), `C80_reports` (PropPrintMain.v), `C80_text_partial` (PropPrintMain.v), `C80_digits_refuted` (PropPrintMain.v), `C80_signal_partial` (PropPrintSignal.v), `C80_segments_partial` (PropPrintSignal.v).

* Model and method: Print.v models the bytes written by printf (%10lf with six decimals, ties to even); PropPrint.v states a reader of the text and proves the round trip by the scanner lemmas of TextFacts; PrintMicro.v: the bounds of zones of words with at most six decimals are millionths (an invariant of all operations on zones); PropPrintMain.v combines this with C68.

### C81 Online matching: reports depend on what was read, stay true, and come in time

* Status: partial. Causality, prefix property and finality are proved for all patterns. That reports come in time is refuted: while an attempt at an early position is alive no later position is tried; ((A B* C)%(<5) | B)$ has no match that lasts 5, but on A B B B ... the match of the first B is not reported however many B follow. Reports are calls of push_back; the buffering of stdout is not modelled. The branch of monaa for unobservable transitions is covered too (C81_same_eps, C81_causal_eps, C81_kept_eps; C81_final_eps if no unobservable transition resets a clock, see C45, and the run on the longer log returns, see C58).
* Theorems: `C81_same` (PropOnline.v), `C81_same_signal` (PropOnline.v), `C81_same_optional` (PropOnline.v), `C81_causal` (PropOnline.v), `C81_causal_signal` (PropOnline.v), `C81_causal_optional` (PropOnline.v), `C81_kept` (PropOnline.v), `C81_final` (PropOnline.v), `C81_prompt_refuted` (PropOnline.v), `C81_same_eps` (PropOnlineEps.v), `C81_causal_eps` (PropOnlineEps.v), `C81_kept_eps` (PropOnlineEps.v), `C81_final_eps` (PropOnlineEps.v).

* Model and method: Online.v: the loops of Monaa.v with a trace of reads and reports; erasure to Monaa.v (C81_same), simulation of the runs on two logs with a common beginning (C81_causal), with C29 and C32 that reports stay true (C81_final). A family of logs on which nothing is reported (C81_prompt_refuted).

### C82 Binary event mode reads the doubles of the records

* Status: proved. Little-endian IEEE 754 binary64, finite values; infinities and NaN in the file are not modelled (decoded as 0). Event bytes that are white space have no text, so C82_text and C82_run exclude them (C82_same needs the text). The numbers of eight bytes are exactly the doubles of C85 (C82_range), so rounding keeps every time read from a binary word (C82_kept); the bytes written for a number decode to it rounded (C82_enc). Comparison is of the exact model: in text mode the program itself rounds to a double.
* Theorems: `C82_double` (PropBinary.v), `C82_text` (PropBinary.v), `C82_same` (PropBinary.v), `C82_run` (PropBinary.v), `C82_range` (PropDouble.v), `C82_kept` (PropDouble.v), `C82_enc` (PropDouble.v).

* Model and method: Ieee.v decodes eight bytes; C82_double compares it with the definition of IEEE 754 binary64, C82_text gives a text for every list of records, C82_same and C82_run compare the two runs of main.

### C83 Reading the word from a file while matching

* Status: partial. Proved that reading on demand makes no difference (C83_text, C83_binary, C83_main) and that what was read stays (C83_kept, C83_record). Refuted: WordVector keeps the time of the event before for a line without number, where LazyDeque has 0 (C83_vector_refuted; the same word for every text in the format, C83_vector). In text mode the newline at the end of the format of fscanf waits for the next character that is not white space, so the last event of the text is never there before the next line begins (C83_available, C83_arrived), and the reports do not depend on it (C83_lag_refuted). inf, nan and hexadecimal numbers are left out, as in C39; buffering of stdin and stdout is not modelled.
* Theorems: `C83_text` (PropStream.v), `C83_binary` (PropStream.v), `C83_main` (PropStream.v), `C83_vector` (PropStream.v), `C83_vector_refuted` (PropStream.v), `C83_kept` (PropStream.v), `C83_available` (PropStream.v), `C83_arrived` (PropStream.v), `C83_lag_refuted` (PropStream.v), `C83_record` (PropStream.v).

* Model and method: Stream.v: LazyDeque with the bytes of the file, the constructor of WordVector, main with the file, fscanf on an open pipe. PropStream.v: simulation with the container of C36; stability of what fscanf returned under more input.

### C84 Public helpers that the program does not call do what their comments say

* Status: partial. C84_update, C84_valid and C84_maker hold. updateConstraint takes the lower bound as it is, isValidConstraint takes it negated, so they do not fit together (C84_together_refuted). removeUnreachableStates writes the initial states into an empty vector: undefined for every automaton with an initial state (C84_unreachable_undefined), it removes nothing otherwise (C84_unreachable_nothing, C84_unreachable_refuted); with room in the vector it would remove the reached states instead of the others (C84_unreachable_inverted). Its only call is commented out.
* Theorems: `C84_update` (PropUnused.v), `C84_valid` (PropUnused.v), `C84_together_refuted` (PropUnused.v), `C84_maker` (PropUnused.v), `C84_unreachable_undefined` (PropUnused.v), `C84_unreachable_nothing` (PropUnused.v), `C84_unreachable_refuted` (PropUnused.v), `C84_unreachable_inverted` (PropUnused.v).

* Model and method: Unused.v, PropUnused.v. updateConstraint: case analysis over the exact extended numbers against the interval as a set of values. removeUnreachableStates: as it is, undefined; the loop is proved to compute exactly the reached states (invariant over the breadth first search) and the final filter then keeps the wrong ones.

### C85 Rounding of doubles makes no difference for times on a binary grid

* Status: partial. C85_exact, C85_nearest and C85_sound hold on grids. Rounding to nearest even is shown to answer a nearest double (C85_rnd64), and for every such rounding a comparison of a clock errs in one direction only: strict constraints that are found to hold do hold, others are found to hold if they do (C85_direction). For arbitrary doubles false: with events at 0.1 and 2.1 the clock is a little more than 2, the rounded difference is 2, so a pair is reported that is no match (C85_all_doubles_refuted). Decimal times are rounded already when they are read: with events at 2.4 and 4.4 the pair (2,5) is a match of the decimal word, and nothing is reported (C85_decimal_refuted). The rounding of the skip tables is not modelled, except for single transitions of the zone automaton (C86).
* Theorems: `C85_exact` (PropRound.v), `C85_nearest` (PropRound.v), `C85_rnd64` (PropRound.v), `C85_direction` (PropRound.v), `C85_sound` (PropRound.v), `C85_all_doubles_refuted` (PropRound.v), `C85_decimal_refuted` (PropRound.v).

* Model and method: Round.v is the text of the matching loops with a rounding operator after every sum and difference; PropRound.v proves it equal to the exact loops by an invariant that bounds the number of grid units in every bound of every configuration (doubled by each constraint of a guard). Rounding to the nearest even double is defined on rationals and shown to keep every double. The skip tables are taken with exact numbers (they are sums of the integer constants of the pattern).

### C86 Zone operations with doubles are exact for bounds on a binary grid

* Status: partial. C86_tighten, C86_canonize, C86_satisfiable and C86_succ hold. For large bounds false: x<=1, y-x<=2^53, z-y<=-1, z>=2^53 has a point, but 2^53+1 is rounded to 2^53 and the zone is found empty (C86_large_refuted).
* Theorems: `C86_tighten` (PropRoundZone.v), `C86_canonize` (PropRoundZone.v), `C86_satisfiable` (PropRoundZone.v), `C86_succ` (PropRoundZone.v), `C86_large_refuted` (PropRoundZone.v).

* Model and method: RoundZone.v has the zone operations with a rounding operator; PropRoundZone.v bounds the entries row by row through close1 (at most three times the largest), then by induction through canonize and the guard, and shows the rounded operations equal to those of Zone.v; with C08 the answer of isSatisfiable is right.
