{"id": "C01", "title": "Clock constraint evaluation", "statement": "Constraint::satisfy(d) answers exactly whether d stands in the written relation (<, <=, >=, >) to c, and Constraint::operator()(val) classifies the value of its clock consistently: EQ exactly when the constraint holds now, GT exactly when it does not hold and can never hold again however long time passes, LT exactly when it does not hold yet but will if enough time passes.", "quantifier": "every constraint (clock, relation, integer constant) and every clock value", "why_tests_cant": "tests sample a handful of values around one constant; the claim is about every value and constant including the boundary", "anchors": ["libmonaa/constraint.hh: Constraint::satisfy, Constraint::operator()"]}
{"id": "C02", "title": "Interval intersection", "statement": "The interval computed by lhs && rhs (and by land) contains exactly the values contained in both operands.", "quantifier": "every pair of intervals (open/closed ends, possibly unbounded above) and every value", "why_tests_cant": "needs every combination of equal/unequal end points and open/closed flags, and all real values", "anchors": ["libmonaa/interval.hh: operator&&(Interval,Interval), land, Interval::contain"]}
{"id": "C03", "title": "Intersection of interval sets", "statement": "land on two sets of intervals (and on a set with one interval) returns a set covering exactly the values covered by both arguments.", "quantifier": "every two finite lists of intervals and every value", "why_tests_cant": "lists of arbitrary length with arbitrary overlaps", "anchors": ["libmonaa/interval.hh: land"]}
{"id": "C04", "title": "Minkowski sum of intervals", "statement": "left + right contains exactly the sums x+y with x in left and y in right; the += on interval sets covers exactly the pairwise sums.", "quantifier": "every two non-empty intervals and every value", "why_tests_cant": "exactness needs an existential witness for every point of an uncountable set", "anchors": ["libmonaa/interval.hh: operator+, operator+="]}
{"id": "C05", "title": "Kleene plus of an interval", "statement": "Interval::plus produces intervals covering exactly the sums of one or more members of the interval.", "quantifier": "every interval with non-negative integer end points, open or closed, and every value", "why_tests_cant": "ranges over sums of unboundedly many summands", "anchors": ["libmonaa/interval.hh: Interval::plus, plus(vector)"]}
{"id": "C06", "title": "Zone tightening is intersection", "statement": "Zone::tighten(x,y,c) turns a zone into exactly the set of clock valuations of the zone that satisfy x-y <= c (or x <= c / -y <= c when a side is omitted).", "quantifier": "every zone of any dimension, clock pair, bound and clock valuation", "why_tests_cant": "infinitely many valuations and matrices of every dimension", "anchors": ["libmonaa/zone.hh: Zone::tighten, Zone::close1"]}
{"id": "C07", "title": "Canonicalisation", "statement": "Zone::canonize keeps the set of clock valuations unchanged and, when the zone is non-empty, every entry of the result is the tightest bound on its difference (the triangle inequality holds).", "quantifier": "every zone of any dimension", "why_tests_cant": "Floyd-Warshall in place on matrices of every size; tests use two or three clocks", "anchors": ["libmonaa/zone.hh: Zone::canonize, Zone::close1"]}
{"id": "C08", "title": "Zone satisfiability", "statement": "Zone::isSatisfiable returns true exactly when some clock valuation satisfies all the constraints of the zone.", "quantifier": "every zone of any dimension", "why_tests_cant": "existence over a dense domain; mixes strict and non-strict bounds", "anchors": ["libmonaa/zone.hh: Zone::isSatisfiable"]}
{"id": "C09", "title": "Time elapse", "statement": "After Zone::elapse on a canonical zone, a valuation is in the zone exactly when it is reached from one of its valuations by a strictly positive delay.", "quantifier": "every canonical non-empty zone, valuation and delay", "why_tests_cant": "set equality over a dense domain", "anchors": ["libmonaa/zone.hh: Zone::elapse"]}
{"id": "C10", "title": "Clock reset", "statement": "After Zone::reset(x) on a canonical zone, a valuation is in the zone exactly when it comes from one of its valuations by setting x to 0.", "quantifier": "every canonical non-empty zone and clock", "why_tests_cant": "set equality over a dense domain (needs the projection witness)", "anchors": ["libmonaa/zone.hh: Zone::reset"]}
{"id": "C11", "title": "Abstraction only enlarges a zone", "statement": "Zone::abstractize never removes a valuation, leaves every bound strictly below the maximal constant M untouched, and is idempotent.", "quantifier": "every zone and threshold", "why_tests_cant": "all matrices and valuations", "anchors": ["libmonaa/zone.hh: Zone::abstractize"]}
{"id": "C12", "title": "makeUnsat empties a zone for good", "statement": "After Zone::makeUnsat the zone is reported unsatisfiable, whatever its contents were and whatever tightenings follow.", "quantifier": "every zone and every finite sequence of tighten calls", "why_tests_cant": "floating-point infinities and NaN propagate through later closures in many ways", "anchors": ["libmonaa/zone.hh: Zone::makeUnsat, Zone::isSatisfiable, Zone::tighten"]}
{"id": "C13", "title": "Guard extraction", "statement": "Zone::makeGuard returns the strongest guard over single clocks implied by a canonical zone (as its documentation says): every valuation of the zone satisfies it and every non-trivial lower and upper bound of each clock is listed.", "quantifier": "every canonical non-empty zone", "why_tests_cant": "depends on the sign conventions of every entry", "anchors": ["libmonaa/zone.hh: Zone::makeGuard"]}
{"id": "C14", "title": "In-place zone intersection", "statement": "Zone::intersectionAssign makes the zone the intersection of itself and its argument.", "quantifier": "every two zones of equal dimension", "why_tests_cant": "all valuations", "anchors": ["libmonaa/zone.hh: Zone::intersectionAssign"]}
{"id": "C15", "title": "Zone equality", "statement": "Two zones compared equal by == denote the same set of valuations, and == is reflexive and symmetric on zones of equal dimension without NaN.", "quantifier": "every two zones of the same dimension", "why_tests_cant": "all matrices", "anchors": ["libmonaa/zone.hh: Zone::operator=="]}
{"id": "C16", "title": "Membership test", "statement": "TimedAutomaton::isMember(w) returns true exactly when the automaton has an accepting run over the timed word w.", "quantifier": "every epsilon-free timed automaton and every finite timed word", "why_tests_cant": "all automata and all words; runs are exponentially many", "anchors": ["libmonaa/timed_automaton.hh: TimedAutomaton::isMember"]}
{"id": "C17", "title": "Deep copy", "statement": "TimedAutomaton::deepCopy produces an automaton that shares no state with the original and accepts the same timed words.", "quantifier": "every well-formed timed automaton and every timed word", "why_tests_cant": "all automata; sharing is invisible on small examples", "anchors": ["libmonaa/timed_automaton.hh: TimedAutomaton::deepCopy"]}
{"id": "C18", "title": "Product automaton", "statement": "intersectionTA builds an automaton accepting exactly the timed words accepted by both arguments.", "quantifier": "every two epsilon-free automata (same zero-duration flags, at most 255 clocks in total) and every timed word", "why_tests_cant": "all pairs of automata and words", "anchors": ["libmonaa/intersection.cc: intersectionTA"]}
{"id": "C19", "title": "Re-rooting the product", "statement": "IntersectionTA updateInitAccepting makes initial exactly the pairs of initial states and accepting exactly the pairs of accepting states, so the re-rooted product again accepts the intersection.", "quantifier": "every re-rooting of the two factors", "why_tests_cant": "every combination of initial/accepting sets", "anchors": ["libmonaa/intersection.cc: updateInitAccepting"]}
{"id": "C20", "title": "Zone graph simulates every run", "statement": "Whenever ta2za returns, every run of the timed automaton from its initial states with strictly positive delays is followed, letter by letter, by a path of the zone automaton from an initial state; hence an empty zone automaton means an empty timed language.", "quantifier": "every timed automaton, run and length", "why_tests_cant": "all automata and all runs", "anchors": ["libmonaa/ta2za.cc: ta2za", "libmonaa/zone_automaton.hh: ZoneAutomaton::empty"]}
{"id": "C21", "title": "Zone graph construction terminates", "statement": "ta2za terminates on every timed automaton.", "quantifier": "every finite timed automaton", "why_tests_cant": "non-termination cannot be observed by a finite test", "anchors": ["libmonaa/ta2za.cc: ta2za", "libmonaa/zone.hh: Zone::abstractize"]}
{"id": "C22", "title": "Emptiness check of zone automata", "statement": "ZoneAutomaton::empty returns true exactly when no accepting state is reachable from an initial state.", "quantifier": "every finite zone automaton", "why_tests_cant": "all graphs, with cycles and unreachable parts", "anchors": ["libmonaa/zone_automaton.hh: ZoneAutomaton::empty"]}
{"id": "C23", "title": "Epsilon closure", "statement": "ZoneAutomaton::epsilonClosure computes exactly the states reachable by unobservable edges.", "quantifier": "every finite zone automaton and set of states", "why_tests_cant": "all graphs, with epsilon cycles", "anchors": ["libmonaa/zone_automaton.hh: ZoneAutomaton::epsilonClosure"]}
{"id": "C24", "title": "Dead state removal keeps only useful states", "statement": "Every state kept by removeDeadStates is reachable from an initial state and can reach an accepting state.", "quantifier": "every finite zone automaton", "why_tests_cant": "all graphs", "anchors": ["libmonaa/zone_automaton.hh: ZoneAutomaton::removeDeadStates"]}
{"id": "C25", "title": "Dead state removal loses no useful state", "statement": "removeDeadStates keeps every state that is reachable from an initial state and can reach an accepting state.", "quantifier": "every finite zone automaton", "why_tests_cant": "depends on the visiting order in cyclic graphs", "anchors": ["libmonaa/zone_automaton.hh: ZoneAutomaton::removeDeadStates"]}
{"id": "C26", "title": "Sunday table: shortest length", "statement": "SundaySkipValue's m is at least 1 and no timed word accepted with at least one event is shorter than m.", "quantifier": "every timed automaton whose zone automaton loses no useful state", "why_tests_cant": "all automata and all accepted words", "anchors": ["libmonaa/sunday_skip_value.hh: SundaySkipValue"]}
{"id": "C27", "title": "Sunday table: shifts are safe", "statement": "If the last character of the current window is not in endChars, no match starts at the current position; and no match starts at any of the positions jumped over by delta of the next character.", "quantifier": "every automaton (as above), every word and position", "why_tests_cant": "all words, all positions", "anchors": ["libmonaa/sunday_skip_value.hh: SundaySkipValue::at, endChars", "libmonaa/monaa.hh: Sunday shift loops"]}
{"id": "C28", "title": "KMP table: shifts are safe", "statement": "If matching attempt at i stopped with an automaton state s among its last states, no match starts at any of the positions i+1 .. i+beta(s)-1.", "quantifier": "every automaton, timed word, start position and last state", "why_tests_cant": "relates two overlapping runs over all timed words", "anchors": ["libmonaa/kmp_skip_value.hh: KMPSkipValue", "libmonaa/constraint.hh: widen"]}
{"id": "C29", "title": "Reported zones are sound (patterns with $)", "statement": "Every pair (t,t') in a zone printed by the matcher for a pattern ending with $ is a match: the events strictly between t and t', shifted by t, followed by $ at t', are accepted by the pattern.", "quantifier": "every epsilon-free automaton, every timed word with non-negative non-decreasing time stamps, every reported zone and every pair in it", "why_tests_cant": "infinitely many pairs per zone, all words and automata", "anchors": ["libmonaa/monaa.hh: monaaDollar"]}
{"id": "C30", "title": "No match is missed (patterns with $)", "statement": "Every match (t,t') with at least one event between t and t' is in some reported zone.", "quantifier": "every epsilon-free automaton, every timed word with strictly increasing time stamps, every match", "why_tests_cant": "combines matching with both skip tables; missing output is invisible to tests that only compare printed zones", "anchors": ["libmonaa/monaa.hh: monaaDollar", "libmonaa/sunday_skip_value.hh", "libmonaa/kmp_skip_value.hh"]}
{"id": "C31", "title": "Reported zones are non-empty and tight", "statement": "Every reported zone is non-empty and canonical, so each of its six printed bounds is the tightest one.", "quantifier": "every automaton, word and reported zone", "why_tests_cant": "needs closure of the 3x3 matrix through every guard sequence", "anchors": ["libmonaa/monaa.hh: monaaDollar, updateConstraint, isValidConstraint"]}
{"id": "C32", "title": "Matching terminates and advances", "statement": "On a finite word each round of the matcher advances the start position by at least one, and the matcher stops.", "quantifier": "every automaton with skip tables and every finite word", "why_tests_cant": "unbounded inputs", "anchors": ["libmonaa/monaa.hh: monaaDollar, monaa"]}
{"id": "C33", "title": "Signal/event matching without $: soundness", "statement": "Every pair (t,t') in a zone reported by monaa() is a match in the sense of that mode: the events strictly between t and t' lead to a state with an enabled transition, on the next event's letter, into an accepting state at t'.", "quantifier": "every epsilon-free automaton, word, zone, pair", "why_tests_cant": "infinitely many pairs, all words", "anchors": ["libmonaa/monaa.hh: monaa"]}
{"id": "C34", "title": "Signal/event matching without $: completeness", "statement": "Every match in the sense of monaa() with its start in an examined position is in some reported zone.", "quantifier": "every epsilon-free automaton, word, match", "why_tests_cant": "infinitely many pairs, all words", "anchors": ["libmonaa/monaa.hh: monaa"]}
{"id": "C35", "title": "Optional-$ matching is sound", "statement": "Every pair in a zone reported by monaaNotNecessaryDollar is a match: either it ends at an event leading to an accepting state, or by a $ transition.", "quantifier": "every automaton, word, zone and pair", "why_tests_cant": "infinitely many pairs", "anchors": ["libmonaa/monaa.hh: monaaNotNecessaryDollar"]}
{"id": "C36", "title": "Online reading equals offline reading", "statement": "Running a matcher on the lazily read word (LazyDeque) gives the same results as running it on the fully loaded word, and never accesses a discarded or unread element.", "quantifier": "every word, pattern and run of the matcher", "why_tests_cant": "interaction of discarding and skipping on unbounded streams", "anchors": ["libmonaa/lazy_deque.hh: LazyDeque", "libmonaa/word_container.hh", "libmonaa/monaa.hh"]}
{"id": "C37", "title": "Lazy deque is a window on the input", "statement": "After any sequence of fetch/at/setFront calls with positions inside the word, LazyDeque returns at position n exactly the n-th element of the input, fetch(n) is true exactly when n is at least the front and the input has more than n elements, and elements before the front are rejected.", "quantifier": "every input and every sequence of operations", "why_tests_cant": "arbitrary interleavings", "anchors": ["libmonaa/lazy_deque.hh: LazyDeque::fetch, at, operator[], setFront"]}
{"id": "C38", "title": "Lazy deque reports the word length", "statement": "Once the end of the input has been seen, LazyDeque::size returns the length of the timed word.", "quantifier": "every input and every sequence of operations", "why_tests_cant": "depends on where the front was moved before the end was noticed", "anchors": ["libmonaa/lazy_deque.hh: LazyDeque::size, setFront, fetch"]}
{"id": "C39", "title": "Textual input reading", "statement": "Every line 'c t' of the textual input yields exactly one event with that character and time; malformed input is not turned into events.", "quantifier": "every input stream", "why_tests_cant": "all malformed streams", "anchors": ["libmonaa/lazy_deque.hh: getOne, getOneBinary"]}
{"id": "C40", "title": "Constraint text round trip", "statement": "Reading back a printed constraint or guard list gives the same constraint(s).", "quantifier": "every clock index 0..255 and every integer constant, every non-empty guard list", "why_tests_cant": "all numbers and list lengths", "anchors": ["libmonaa/constraint.hh: operator<<", "monaa/timed_automaton_parser.hh: operator>>"]}
{"id": "C41", "title": "Clock count of a parsed automaton covers every clock used", "statement": "After reading a DOT automaton, every clock mentioned in a guard or in a reset set has an index below clockSize(), and maxConstraints holds the largest constant of each clock.", "quantifier": "every DOT automaton", "why_tests_cant": "all automata", "anchors": ["monaa/timed_automaton_parser.hh: convBoostTA"]}
{"id": "C42", "title": "TRE translation: atoms, disjunction, concatenation, plus, conjunction, time restriction", "statement": "The automaton built by toEventTA from a timed regular expression accepts exactly the timed words of the expression's language.", "quantifier": "every timed regular expression and timed word", "why_tests_cant": "structural induction over all expressions", "anchors": ["monaa/tre.cc: TRE::toEventTA, concat2, reduceStates"]}
{"id": "C43", "title": "One-sided time restrictions", "statement": "expr%(>s) and expr%(>=s) restrict the duration from below and leave it unbounded above.", "quantifier": "every expression and bound", "why_tests_cant": "involves undefined conversion of infinity to int, which tests on one compiler cannot settle", "anchors": ["monaa/tre.cc: TRE::toEventTA (op::within)", "libmonaa/constraint.hh: ConstraintMaker"]}
{"id": "C44", "title": "Stuck state removal", "statement": "removeStuckStates keeps the accepted timed language unchanged.", "quantifier": "every timed automaton and word", "why_tests_cant": "all automata", "anchors": ["monaa/tre.cc: removeStuckStates, reduceStates"]}
{"id": "C45", "title": "Epsilon branch of monaa: resets on unobservable edges", "statement": "Clocks reset on unobservable transitions are measured from the time of that transition in the reported zones.", "quantifier": "every automaton with unobservable transitions and every word", "why_tests_cant": "symbolic times; all words", "anchors": ["libmonaa/monaa.hh: monaa (epsilon branch)", "libmonaa/intermediate_zone.hh: IntermediateZone::alloc, update, tighten"]}
{"id": "C46", "title": "Answer counting", "statement": "AnsNum's size is the number of zones reported since the last clear, for both report forms.", "quantifier": "every sequence of reports and clears", "why_tests_cant": "arbitrary sequences", "anchors": ["libmonaa/ans_vec.hh: AnsVec, IntContainer"]}
{"id": "C47", "title": "Undefined behaviour freedom of the KMP table construction", "statement": "Building the KMP table performs no undefined operation.", "quantifier": "every automaton", "why_tests_cant": "iterator invalidation shows up only for particular reallocation patterns", "anchors": ["libmonaa/kmp_skip_value.hh: KMPSkipValue"]}
{"id": "C48", "title": "Interval mode and matrix mode agree", "statement": "For at most one allocated event clock, IntermediateZone's interval representation denotes the same set of (t,t') pairs as the matrix representation after the same operations.", "quantifier": "every sequence of guards, reset vectors and allocations", "why_tests_cant": "all sequences and all reals", "anchors": ["libmonaa/intermediate_zone.hh: IntermediateZone"]}
{"id": "C49", "title": "Signal-mode normal form terminates", "statement": "DNFTRE::toNormalForm terminates on every disjunctive normal form.", "quantifier": "every expression", "why_tests_cant": "non-termination is not testable", "anchors": ["monaa/intermediate_tre.cc: DNFTRE::toNormalForm"]}
{"id": "C50", "title": "Optional-$ matching misses nothing", "statement": "Every match in the sense of monaaNotNecessaryDollar (ending by a $ transition after at least one event, or with an event that leads to an accepting state) is in some reported zone.", "quantifier": "every epsilon-free pattern, word and match", "why_tests_cant": "infinitely many pairs, all words, interaction with both skip tables", "anchors": ["libmonaa/monaa.hh: monaaNotNecessaryDollar"]}
{"id": "C51", "title": "Automata built from expressions have only useful states", "statement": "Every state of the automaton that toEventTA builds is reachable from an initial state and can reach an accepting state, as promised by the comment of the function.", "quantifier": "every timed regular expression", "why_tests_cant": "all expressions", "anchors": ["monaa/tre.hh: TRE::toEventTA", "monaa/tre.cc: removeStuckStates, reduceStates"]}
{"id": "C52", "title": "cutVars is the projection onto the kept clocks", "statement": "For a canonical zone, the zone returned by cutVars(from, to) contains exactly the values of the clocks from..to that some point of the zone gives to them; for a zone that is not canonical it may contain more.", "quantifier": "every canonical zone, every range of clocks, every valuation", "why_tests_cant": "infinitely many valuations; needs the extension property of canonical matrices", "anchors": ["libmonaa/zone.hh: Zone::cutVars"]}
{"id": "C53", "title": "widen forgets exactly the lower bounds of a guard", "statement": "A constraint is in the widened guard exactly when it is an upper bound of the guard; a valuation satisfies the widened guard of a satisfiable guard exactly when raising some clocks makes it satisfy the guard.", "quantifier": "every guard and valuation", "why_tests_cant": "all guards and valuations", "anchors": ["libmonaa/constraint.hh: widen"]}
{"id": "C54", "title": "Printed inequalities denote the zone", "statement": "The three lines printed for a reported zone are satisfied by exactly the pairs (begin, end) that the zone contains.", "quantifier": "every reported zone, every pair of times", "why_tests_cant": "infinitely many pairs and bounds", "anchors": ["libmonaa/ans_vec.hh: PrintContainer::push_back"]}
{"id": "C55", "title": "DOT output read back keeps the language", "statement": "Printing an automaton as DOT and reading it again (parseBoostTA, convBoostTA) gives an automaton with the same language, whatever order the graph reader gives to the vertices.", "quantifier": "every well-formed automaton without null targets whose guards are printable, every order of vertices, every address assignment", "why_tests_cant": "all automata and all orders", "anchors": ["libmonaa/timed_automaton.hh: operator<<", "monaa/timed_automaton_parser.hh: parseBoostTA, convBoostTA"]}
{"id": "C56", "title": "Event mode from bytes to printed lines", "statement": "For a textual input that spells a word, every pair that satisfies a printed block of inequalities is a match of the pattern in that word, every printed block is satisfiable, and the count equals the number of blocks, quiet or not.", "quantifier": "every well-formed automaton, every spelling of every word with non-decreasing time stamps", "why_tests_cant": "end-to-end over all inputs", "anchors": ["monaa/main.cc: main", "libmonaa/lazy_deque.hh: getOne", "libmonaa/monaa.hh: monaaDollar", "libmonaa/ans_vec.hh: PrintContainer"]}
{"id": "C57", "title": "monaa() reports only matches, unobservable transitions included", "statement": "When unobservable transitions reset no clock, every pair in a zone reported by monaa() is a match: a run of the pattern that takes the observed events between t and t' and unobservable steps in between, and whose last edge is taken at t'. Every reported zone contains a pair.", "quantifier": "every well-formed pattern whose unobservable transitions reset nothing, every word with non-decreasing time stamps", "why_tests_cant": "real-valued begin, end and step times; all words and patterns", "anchors": ["libmonaa/monaa.hh: monaa (epsilon branch)", "libmonaa/intermediate_zone.hh: IntermediateZone"]}
{"id": "C58", "title": "monaa() terminates on finite words", "statement": "After the tables were built, monaa() ends on every finite word.", "quantifier": "every pattern, every word over the byte range of the tables", "why_tests_cant": "non-termination cannot be observed by a test", "anchors": ["libmonaa/monaa.hh: monaa (epsilon branch, loop over CurrEpsilonConf)"]}
{"id": "C59", "title": "monaa() reports the matches at the positions it examines, unobservable transitions included", "statement": "Every match that begins before the event at an examined position is in a reported zone.", "quantifier": "every pattern with unobservable transitions that reset nothing, every word with increasing time stamps, every real begin and end", "why_tests_cant": "real-valued times; all runs", "anchors": ["libmonaa/monaa.hh: monaa (epsilon branch)"]}
{"id": "C60", "title": "monaa() can be called for several patterns", "statement": "A call of monaa() behaves the same whatever patterns were used earlier in the same process.", "quantifier": "every sequence of calls", "why_tests_cant": "the effect of the static vector depends on all earlier calls", "anchors": ["libmonaa/monaa.hh: InternalState constructor (static zeroResetTime)"]}
{"id": "C61", "title": "Signal mode does not depend on the separation code", "statement": "The automaton of toSignalTA does not depend on the code that separates expressions whose decision is Mixed: that code is never run.", "quantifier": "every expression and every replacement of the separation code", "why_tests_cant": "dead code cannot be shown dead by any number of inputs", "anchors": ["monaa/intermediate_tre.cc: AtomicTRE::toNormalForm, DNFTRE::toNormalForm", "monaa/intermediate_tre.hh: SyntacticDecision"]}
{"id": "C62", "title": "Signal mode recognises the signals of the expression", "statement": "When toSignalTA returns an automaton, it accepts the word of a signal exactly if the signal belongs to the expression.", "quantifier": "every expression, every signal over rational times", "why_tests_cant": "all expressions and uncountably many signals; aliasing shows only for particular shapes", "anchors": ["monaa/tre.cc: toSignalTA", "monaa/intermediate_tre.cc: DNFTRE::DNFTRE, toNormalForm, makeSNF, toSignalTA"]}
{"id": "C63", "title": "Signal mode has defined behaviour", "statement": "Translating an expression in signal mode does not run into undefined behaviour.", "quantifier": "every expression", "why_tests_cant": "undefined behaviour need not show in a test run", "anchors": ["monaa/intermediate_tre.hh: AtomicTRE constructors", "monaa/intermediate_tre.cc: AtomicTRE::toSignalTA"]}
{"id": "C64", "title": "Texts of expressions are read by the grammar", "statement": "The parser accepts a text exactly if it is spelled from a tree of the documented grammar, and the expression it builds has the language of such a tree; other texts are rejected with an error, without undefined behaviour.", "quantifier": "every text", "why_tests_cant": "unboundedly many texts; the generated parser has conflicts that tests of single inputs do not show", "anchors": ["monaa/tre_lexer.l", "monaa/tre_parser.yy", "monaa/tre_driver.hh"]}
{"id": "C65", "title": "Operators have their usual precedence", "statement": "A text in which concatenation binds stronger than &, & stronger than |, and the postfix operators strongest is read as that tree; blanks and leading zeros do not matter.", "quantifier": "every tree and every spelling of it", "why_tests_cant": "the parse depends on how the generator resolves conflicts; only some shapes are misread", "anchors": ["monaa/tre_parser.yy"]}
{"id": "C66", "title": "Parentheses determine the reading", "statement": "A text with parentheses around every operation is read as exactly the tree it is written from.", "quantifier": "every tree and every spelling of it", "why_tests_cant": "all trees", "anchors": ["monaa/tre_parser.yy"]}
{"id": "C67", "title": "Exit statuses of monaa", "statement": "monaa ends with the documented status: 0 on success, help and version, 1 on contradicting options or a missing file, 2 on a parse error; the pattern and the word are taken from the documented places.", "quantifier": "every command line, every file system content, every input", "why_tests_cant": "combinations of options, positional arguments and file contents", "anchors": ["monaa/main.cc", "doc/options.md", "doc/man.md"]}
{"id": "C68", "title": "From text to printed lines", "statement": "For an expression given as text and a timed word given as text, the lines that monaa prints in event mode describe exactly the intervals whose segment is in the language of the expression.", "quantifier": "every expression text, every timed word", "why_tests_cant": "crosses parser, translation, matching and printing for all inputs", "anchors": ["monaa/main.cc", "monaa/tre_parser.yy", "monaa/tre.cc", "libmonaa/monaa.hh", "libmonaa/ans_vec.hh"]}
{"id": "C69", "title": "tre2ta prints an automaton of the expression", "statement": "The graph that tre2ta prints can be read again as an automaton with the language of the expression; on a parse error the status is 2.", "quantifier": "every expression text", "why_tests_cant": "all expressions and all words", "anchors": ["monaa/tre2ta.cc"]}
{"id": "C70", "title": "Signal mode from text to printed lines", "statement": "For an expression given as text and a signal given as text, the lines that monaa -s prints describe exactly the intervals on which the signal is one that the expression describes.", "quantifier": "every expression text, every signal", "why_tests_cant": "crosses parser, signal translation, matching, skipping and printing for all inputs", "anchors": ["monaa/main.cc", "monaa/tre.cc: toSignalTA", "monaa/intermediate_tre.cc", "libmonaa/monaa.hh: monaa"]}
{"id": "C71", "title": "The signal product recognises the signals of both arguments", "statement": "intersectionSignalTA(in1, in2, out) makes an automaton whose signals are exactly the signals that both in1 and in2 recognise, however the two cut a letter into pieces.", "quantifier": "all pairs of timed automata, all signals", "why_tests_cant": "the product interleaves unseen steps of both arguments; correctness is about all words with the same signal", "anchors": ["libmonaa/intersection.cc: intersectionSignalTA"]}
{"id": "C72", "title": "monaa returns", "statement": "On a finite log, monaa (and monaa -e, and monaa -s) returns: the skip tables are finished, and then the matching.", "quantifier": "every pattern, every finite timed word", "why_tests_cant": "a test that does not return tells nothing about whether it ever will; the zone graphs of the KMP table have no size bound to test against", "anchors": ["libmonaa/monaa.hh: monaa, monaaDollar, monaaNotNecessaryDollar", "libmonaa/kmp_skip_value.hh: KMPSkipValue::KMPSkipValue", "libmonaa/sunday_skip_value.hh: SundaySkipValue::SundaySkipValue", "libmonaa/ta2za.cc: ta2za"]}
{"id": "C73", "title": "Fresh zones", "statement": "Zone::zero(n) is exactly the valuation in which all clocks are 0, Zone::universal(n) contains every valuation; every call returns the same zone for the same size, whatever was asked for before.", "quantifier": "every size, valuation and sequence of calls", "why_tests_cant": "all sizes and valuations, and the static zones depend on all earlier calls", "anchors": ["libmonaa/zone.hh: Zone::zero, Zone::universal, Zone::abstractize"]}
{"id": "C74", "title": "Renaming to unobservable transitions", "statement": "renameToEpsilonTransitions makes exactly the transitions unobservable whose character the target state reads next; the words of the result are the words of the automaton with those events hidden, and no word is lost.", "quantifier": "every timed automaton and word", "why_tests_cant": "all automata and words; the states that lose acceptance depend on all incoming transitions", "anchors": ["monaa/tre.cc: renameToEpsilonTransitions"]}
{"id": "C75", "title": "Several expressions in signal mode", "statement": "toSignalTA gives the same automaton whatever was translated earlier in the same process.", "quantifier": "every sequence of calls", "why_tests_cant": "depends on the addresses that the allocator reuses", "anchors": ["monaa/tre.cc: renameToEpsilonTransitions (static output), toSignalTA"]}
{"id": "C76", "title": "The zone automaton has no other words", "statement": "Every path of the zone automaton of ta2za from an initial state is the trace of a run of the timed automaton with strictly positive delays, ending in an accepting state if the path does; so empty() answers exactly whether the timed language is empty.", "quantifier": "every timed automaton whose maxConstraints bound the constants of its guards", "why_tests_cant": "all automata and paths; needs a run for every path, through the abstraction of zones", "anchors": ["libmonaa/ta2za.cc: ta2za", "libmonaa/zone.hh: Zone::abstractize", "libmonaa/zone_automaton.hh: ZoneAutomaton::empty"]}
{"id": "C77", "title": "The message that the pattern matches nothing is right", "statement": "monaa in event mode with a pattern x$ exits with 10 if and only if no word at all has a match of the pattern that contains an event; monaa -s exits with 10 if and only if the pattern describes no signal. Otherwise monaa reads the word and returns.", "quantifier": "every pattern of the fragment, every readable word, every placement of states in memory", "why_tests_cant": "speaks about all words for a given pattern; one direction needs a word for each pattern, the other all words", "anchors": ["libmonaa/sunday_skip_value.hh: SundaySkipValue (exit 10)", "libmonaa/ta2za.cc: ta2za", "monaa/tre.cc: toEventTA", "monaa/main.cc: main"]}
{"id": "C78", "title": "Signal mode returns", "statement": "monaa -s with a pattern, from the texts on, is never undefined and always comes to an end: it prints the blocks it finds, or exits with 10 because the pattern is empty.", "quantifier": "every pattern of the fragment, every readable word of letters with timestamps that do not decrease, every placement of states in memory", "why_tests_cant": "termination and absence of undefined behaviour for all patterns and words; the translation, the zone automata and the tables are built anew for every pattern", "anchors": ["monaa/tre.cc: toSignalTA", "libmonaa/interval.hh: plus", "libmonaa/kmp_skip_value.hh: KMPSkipValue", "libmonaa/monaa.hh: monaa", "monaa/main.cc: main"]}
{"id": "C79", "title": "ascii2bin writes the events of the text, and monaa -b can read them", "statement": "ascii2bin reads a number N and a text of a timed word and writes N in four bytes and then one record of nine bytes per event: with N the number of events, exactly the events of the text in their order. Without the four bytes in front, monaa -b reads exactly the word of the text. (As written, the four bytes stay in front, and monaa -b never reads the word; a text without N, as monaa itself reads it, is undefined; a number that is too large makes ascii2bin repeat the last event.)", "quantifier": "all words, all renderings of a word as a text, all numbers in front, all encodings of doubles in eight bytes, all file systems", "why_tests_cant": "No test runs ascii2bin, and a test of the reader with hand-made records does not show that the two programs disagree about the four bytes in front.", "anchors": ["utils/ascii2bin.c: main", "libmonaa/lazy_deque.hh: getOneBinary", "monaa/main.cc: isBinary"]}
{"id": "C80", "title": "The printed text says exactly what the matches are", "statement": "Somebody who reads the text that monaa prints (three lines and a rule of equality signs for each block; numbers as scanf reads them) finds the blocks in their order, the comparisons and variables as they are and each bound as the nearest millionth (the even one of two). If the times in the word have at most six decimals, nothing is lost: a pair satisfies one of the blocks of the text exactly if it satisfies one of the blocks that were computed, and for the patterns of C68 exactly if it is a match.", "quantifier": "all zones, patterns (for the equivalence with matches: of the fragment of C68), words, spellings of pattern and word, signs of zeros, and pairs t, t'", "why_tests_cant": "A test compares a few outputs byte by byte; it does not show that the rounding never hides a match nor for which words it does.", "anchors": ["libmonaa/ans_vec.hh: PrintContainer::push_back", "monaa/main.cc: main", "examples/integrated_test.sh"]}
{"id": "C81", "title": "Online matching: reports depend on what was read, stay true, and come in time", "statement": "monaa reads the log while it matches: what it has reported when it asks for the event after the first n depends only on these n events, is reported for every continuation and is a match in every continuation. A match is reported while the log goes on, not only when it ends.", "quantifier": "every pattern, every placement in memory, every log and every continuation of it", "why_tests_cant": "the order of reading and reporting on all continuations of a log cannot be enumerated; that a report never comes needs logs of every length", "anchors": ["libmonaa/README.md: online timed pattern matching", "libmonaa/monaa.hh: monaaDollar, monaa", "libmonaa/lazy_deque.hh: fetch, setFront", "libmonaa/ans_vec.hh: AnsPrinter::push_back"]}
{"id": "C82", "title": "Binary event mode reads the doubles of the records", "statement": "monaa -b on a file of records (one byte and the eight bytes of a double) does exactly what monaa does on a text file of the same events with the exact values of these doubles; an incomplete record at the end is ignored.", "quantifier": "every list of records, every rest of less than nine bytes, every pattern, options, placement in memory", "why_tests_cant": "2^64 bit patterns and arbitrary words; the equality of two runs for all patterns", "anchors": ["libmonaa/lazy_deque.hh:16-23 getOneBinary", "monaa/main.cc: -b", "libmonaa/word_container.hh"]}
{"id": "C83", "title": "Reading the word from a file while matching", "statement": "Matching on a file that is read on demand (LazyDeque on a FILE, as monaa does with its input) reports what matching on the whole word reports, for text and binary files, in every matching mode, and the command monaa shows the same. WordVector and LazyDeque read the same word from the same file. With a pipe that stays open, an event is there as soon as its line (or its binary record) has been written, so that a match can be reported before the next event happens.", "quantifier": "all patterns, all files, all options; all texts of words; all continuations of the text", "why_tests_cant": "The tests read short complete files; that no call asks for a byte too many or drops one is about every point at which the matching loops may ask for the next event.", "anchors": ["libmonaa/lazy_deque.hh:12-91", "libmonaa/word_container.hh:83-102", "monaa/main.cc:126-143"]}
{"id": "C84", "title": "Public helpers that the program does not call do what their comments say", "statement": "updateConstraint of monaa.hh cuts an interval with a constraint: exactly the values of the interval that satisfy the constraint (counted from the reset time) stay, with the right strictness on both ends and with infinite ends. isValidConstraint is true exactly if some value lies between the two bounds. The operators of ConstraintMaker build the constraint they are written as. removeUnreachableStates leaves exactly the states that transitions lead to from an initial state.", "quantifier": "all bounds, constraints, reset times, values; all timed automata", "why_tests_cant": "The helpers are inline functions of public headers without any test; strictness at equal bounds and writes into an empty vector show only for special values, an undefined write may look fine in a test.", "anchors": ["libmonaa/monaa.hh:99-140", "libmonaa/constraint.hh:71-88", "monaa/tre.cc:138-185"]}
{"id": "C85", "title": "Rounding of doubles makes no difference for times on a binary grid", "statement": "If all times of the word and all constants of the guards are multiples of 2^-k and small enough (times at most T, constants at most C multiples, and (T+C)*2^(n+2) <= 2^53 for a transition with n constraints), then the zones that monaaDollar, monaa and monaaNotNecessaryDollar report are exactly those computed with exact numbers, whatever the rounding does to numbers that are not doubles. In particular the reported pairs are matches of the word. For arbitrary doubles (times such as 0.1) every reported pair is a match, too.", "quantifier": "all rounding operators that keep doubles, all automata and words on the grid, all grids, the three modes, word in memory or read while matching", "why_tests_cant": "A test has a few times, mostly small integers; that no intermediate sum of any guard ever needs more than 53 bits is a claim about all words, automata and numbers.", "anchors": ["libmonaa/monaa.hh:100-103", "libmonaa/monaa.hh:813-1075", "libmonaa/zone.hh:14-27", "libmonaa/constraint.hh:23-34"]}
{"id": "C86", "title": "Zone operations with doubles are exact for bounds on a binary grid", "statement": "If the finite bounds of a zone with n rows are multiples of 2^-k, at most N of them, then Zone::tighten (9N <= 2^53), Zone::canonize and Zone::isSatisfiable (2N*3^n <= 2^53) computed with doubles give exactly the result of exact numbers, also for empty zones with negative cycles, and isSatisfiable answers true exactly if the zone has a point; the same holds for the zone after a transition of the zone automaton. For zones with arbitrary doubles as bounds isSatisfiable is right, too.", "quantifier": "all zones, dimensions, grids, bounds; all roundings that keep doubles", "why_tests_cant": "In an empty zone every pass of canonize may multiply the bounds; that they never leave the 53 bits is a claim about all zones of a size.", "anchors": ["libmonaa/zone.hh:98-150", "libmonaa/ta2za.cc:68-94"]}
