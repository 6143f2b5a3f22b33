{"id": "C01", "title": "Set intersection is exact", "statement": "If A & B returns a set, then a finite number or a string is a member of the result exactly when it is a member of both A and B.", "quantifier": "all well-formed sets A, B (empty, nominal, finite real, interval, union), all finite real points and strings, every frozenset iteration order", "why_tests_cant": "The input space (sets, endpoints, nesting) is infinite; a test fixes a few literals.", "anchors": ["src/sets.py: EmptySetC, FiniteNominal.__and__, FiniteReal.__and__, Interval.__and__, Union.__and__"]}
{"id": "C02", "title": "Set union is exact", "statement": "If A | B returns a set, a finite number or a string is a member of it exactly when it is a member of A or of B. Infinite points are never invented, but may be lost. For two sets of numbers A | B always returns.", "quantifier": "all well-formed sets A, B, all points, every frozenset iteration order", "why_tests_cant": "The input space (sets, endpoints, nesting) is infinite; a test fixes a few literals.", "anchors": ["src/sets.py: FiniteNominal.__or__, FiniteReal.__or__, Interval.__or__, Union.__or__, union_intervals, union_intervals_finite, make_union"]}
{"id": "C03", "title": "Set complement is exact relative to its sort", "statement": "If ~A returns a set, then for a real set A the members of ~A are the finite reals not in A, and for a nominal set the strings not in A.", "quantifier": "all well-formed sets A that are purely real or purely nominal, all points, every frozenset iteration order", "why_tests_cant": "The input space (sets, endpoints, nesting) is infinite; a test fixes a few literals.", "anchors": ["src/sets.py: EmptySetC.__invert__, FiniteNominal.__invert__, FiniteReal.__invert__, Interval.__invert__, Union.__invert__"]}
{"id": "C04", "title": "Results of set operations are well formed", "statement": "Every set returned by &, | or ~ on well-formed sets is well formed: intervals have a < b and infinite ends open, unions have at least two pieces, at most one nominal and one finite-real piece, and pieces are pairwise disjoint.", "quantifier": "all well-formed sets and every frozenset iteration order", "why_tests_cant": "Probability code adds up the pieces of a union, so disjointness has to hold after every history of set operations.", "anchors": ["src/sets.py: Union.__init__, Union.__or__, Union.__and__, union_intervals"]}
{"id": "C05", "title": "Set operations do not raise", "statement": "A & B and ~A return a set for every pair of well-formed sets.", "quantifier": "all well-formed sets", "why_tests_cant": "The failing inputs need two pieces that touch at isolated points; tests do not enumerate shapes.", "anchors": ["src/sets.py: Union.__init__, Union.__and__, FiniteReal.__invert__"]}
{"id": "C06", "title": "EmptySet is returned exactly when there is no member", "statement": "A well-formed set other than EmptySet has at least one member; hence comparing a result with EmptySet decides emptiness.", "quantifier": "all well-formed sets", "why_tests_cant": "The input space (sets, endpoints, nesting) is infinite; a test fixes a few literals.", "anchors": ["src/sets.py: EmptySet, Set classes", "src/sym_util.py: are_disjoint"]}
{"id": "C07", "title": "Set operations do not depend on frozenset iteration order", "statement": "Two runs of the same set operation that iterate frozensets in different orders, when both return, return sets with the same finite members.", "quantifier": "all well-formed sets, all pairs of iteration orders", "why_tests_cant": "Python's hash randomisation picks one order per process; a test sees one of them.", "anchors": ["src/sets.py: Union.values, Union.intervals, Union.__and__, Union.__or__, Union.__invert__"]}
{"id": "C08", "title": "Membership test agrees with set algebra", "statement": "x in A answers true exactly for the members that &, | and ~ talk about.", "quantifier": "all well-formed sets, all numbers and strings", "why_tests_cant": "The input space (sets, endpoints, nesting) is infinite; a test fixes a few literals.", "anchors": ["src/sets.py: __contains__ methods"]}
{"id": "C09", "title": "Equal sets have equal members and equal hashes", "statement": "If A == B then A and B have the same members, and hash(A) == hash(B) so that they are interchangeable as memo keys.", "quantifier": "all well-formed sets", "why_tests_cant": "The input space (sets, endpoints, nesting) is infinite; a test fixes a few literals.", "anchors": ["src/sets.py: __eq__, __hash__ methods"]}
{"id": "C10", "title": "Solving a transform is exact inversion", "statement": "t.invert(S), when it returns, contains a real number x exactly when the transform is defined at x and maps x into S. This is claimed for exponents and logarithms with base above 1, away from the singular points of a logarithm and from overlapping pieces; the refuting theorems show that each of these conditions is needed.", "quantifier": "all transform expressions over one variable (identity, root, exponential, logarithm, abs, reciprocal, polynomial, piecewise, nested), all sets S of finite reals, all real x", "why_tests_cant": "The input space (sets, endpoints, nesting) is infinite; a test fixes a few literals.", "anchors": ["src/transforms.py: Transform.invert, Injective, Identity, Radical, Exponential, Logarithm, Abs, Reciprocal, Poly, Piecewise"]}
{"id": "C11", "title": "Solving an event is exact", "statement": "event.solve(), when it returns, contains x exactly when the event is true for x, under the same conditions as for inversion and for nominal events directly on a variable.", "quantifier": "all single-variable events, all real or string x", "why_tests_cant": "The input space (sets, endpoints, nesting) is infinite; a test fixes a few literals.", "anchors": ["src/transforms.py: Event.solve, EventBasic.solve, EventOr.invert_finite, EventAnd.invert_finite"]}
{"id": "C12", "title": "Arithmetic on transforms means arithmetic", "statement": "The transform built by t+c, c+t, t-c, c*t, t/c, c/t, -t, t+u, t-u, t*u, event*t, t**n, t**(1/n), c**t, log and abs evaluates, at every point, to the arithmetic combination of the values of its operands, whatever simplification the operator performs. The exceptions c - t and t**(1/1) are exhibited.", "quantifier": "all transforms, all constants, all points where the operands are defined", "why_tests_cant": "The input space (sets, endpoints, nesting) is infinite; a test fixes a few literals.", "anchors": ["src/transforms.py: Transform.__add__, __sub__, __rsub__, __mul__, __truediv__, __rtruediv__, __pow__, __rpow__, __neg__, __abs__"]}
{"id": "C13", "title": "Event operators mean Boolean operators", "statement": "A & B, A | B and A ^ B are true exactly where the conjunction, disjunction and exclusive or of their operands are; ~A is true exactly where A is false; whatever simplification the operator performs. Falsity is tracked too, unless a conjunction has become empty and lost its sort, which is exhibited.", "quantifier": "all events, all assignments on which the events are defined and typed", "why_tests_cant": "The input space (sets, endpoints, nesting) is infinite; a test fixes a few literals.", "anchors": ["src/transforms.py: EventBasic.__and__, __or__, EventInterval.__invert__, EventFiniteReal, EventFiniteNominal, EventOr, EventAnd, Event.__xor__"]}
{"id": "C14", "title": "Comparison and membership operators build the right event", "statement": "X < c, X <= c, X > c, X >= c for finite c always return an event true at exactly the points described; chained comparisons (a < X) < b and X << values, when they return, do so too.", "quantifier": "all transforms, all bounds, all value sets, all points", "why_tests_cant": "The input space (sets, endpoints, nesting) is infinite; a test fixes a few literals.", "anchors": ["src/transforms.py: Transform.__lt__, __le__, __gt__, __ge__, __lshift__, __eq__, EventInterval.__compute_gte__, __compute_lte__, __compute_gt__, __compute_lt__"]}
{"id": "C15", "title": "DNF conversion preserves meaning and reaches DNF", "statement": "event.to_dnf() is true of the same assignments as event and is a disjunction of conjunctions of basic events.", "quantifier": "all events, all assignments", "why_tests_cant": "The input space (sets, endpoints, nesting) is infinite; a test fixes a few literals.", "anchors": ["src/transforms.py: Event.to_dnf, EventBasic.to_dnf_list, EventOr.to_dnf_list, EventAnd.to_dnf_list"]}
{"id": "C16", "title": "DNF factoring preserves meaning", "statement": "The clauses produced by dnf_factor describe the same event clause by clause, with every conjunct filed under the value of the lookup at its variables and no key twice; factoring succeeds on every DNF event whose literals constrain variables.", "quantifier": "all DNF events, all assignments, every lookup", "why_tests_cant": "The input space (sets, endpoints, nesting) is infinite; a test fixes a few literals.", "anchors": ["src/dnf.py: dnf_factor"]}
{"id": "C17", "title": "DNF normalisation preserves meaning", "statement": "dnf_normalize(event), when it returns an event, is true of the same assignments and mentions variables only directly; when it returns None, the event is unsatisfiable.", "quantifier": "all events, all assignments of finite numbers or strings inside the domains of the event's transforms", "why_tests_cant": "The input space (sets, endpoints, nesting) is infinite; a test fixes a few literals.", "anchors": ["src/dnf.py: dnf_normalize"]}
{"id": "C18", "title": "Disjoint union is equivalent and disjoint", "statement": "dnf_to_disjoint_union(event) is true of the same assignments as event, and no assignment makes two different clauses true.", "quantifier": "all normalised events; disjointness for all assignments, equivalence for assignments of the sorts used in the event", "why_tests_cant": "The input space (sets, endpoints, nesting) is infinite; a test fixes a few literals.", "anchors": ["src/dnf.py: dnf_non_disjoint_clauses, dnf_to_disjoint_union"]}
{"id": "C19", "title": "Substitution of derived variables is faithful", "statement": "Substituting the environment of a leaf into an event gives an event on the base variable that is true of exactly the same assignments that satisfy the environment, and substitution terminates for every environment built by transform().", "quantifier": "all environments, all events, all assignments consistent with the environment", "why_tests_cant": "The input space (sets, endpoints, nesting) is infinite; a test fixes a few literals.", "anchors": ["src/transforms.py: Transform.substitute, subs", "src/spe.py: LeafSPE.transform, LeafSPE.logprob"]}
{"id": "C20", "title": "Log-space arithmetic is exact arithmetic on probabilities", "statement": "logsumexp, logdiffexp, log1mexp, lognorm and logflip compute, in exact arithmetic, the logarithm of the sum, difference, complement and normalisation of the probabilities.", "quantifier": "all log probabilities including minus infinity", "why_tests_cant": "The input space (sets, endpoints, nesting) is infinite; a test fixes a few literals.", "anchors": ["src/math_util.py: log1mexp, logdiffexp, lognorm, logflip"]}
{"id": "C21", "title": "A leaf reports the probability of every event on it", "statement": "For a continuous, discrete, nominal or atomic leaf, conditioned or not, with derived variables, exp(leaf.logprob(event)) is the probability that the leaf's random value makes the event true.", "quantifier": "all leaves, all events on their variables, all cumulative distribution functions", "why_tests_cant": "The input space (sets, endpoints, nesting) is infinite; a test fixes a few literals.", "anchors": ["src/spe.py: LeafSPE.logprob, RealLeaf.logprob__, ContinuousLeaf, DiscreteLeaf, NominalLeaf, AtomicLeaf"]}
{"id": "C22", "title": "A sum-product expression reports the probability of every event", "statement": "exp(spe.logprob(event)), when it returns, is the probability of the event under the joint distribution in which sums are mixtures and products are independent.", "quantifier": "all sum-product expressions of any depth, all events on their variables", "why_tests_cant": "Inclusion-exclusion over clauses with pruning is exponential; tests try a few clauses.", "anchors": ["src/spe.py: BranchSPE.logprob, SumSPE.logprob_mem, ProductSPE.logprob_mem, ProductSPE.logprob_conjunction"]}
{"id": "C23", "title": "Reported probabilities obey the laws of probability", "statement": "Reported probabilities lie in [0,1]; equivalent events get equal probability; implied events get no smaller probability; complementary events sum to one; disjoint events add.", "quantifier": "all sum-product expressions, all events", "why_tests_cant": "The input space (sets, endpoints, nesting) is infinite; a test fixes a few literals.", "anchors": ["src/spe.py: SPE.logprob, SPE.prob"]}
{"id": "C24", "title": "Conditioning is Bayes' rule", "statement": "If spe.condition(E) returns s, then s represents the conditional distribution: P_s(A) * P(E) = P(A and E) for every event A.", "quantifier": "all sum-product expressions, all typed events E, all events A", "why_tests_cant": "The input space (sets, endpoints, nesting) is infinite; a test fixes a few literals.", "anchors": ["src/spe.py: BranchSPE.condition, SumSPE.condition_mem, ProductSPE.condition_mem, ProductSPE.condition_clause, LeafSPE.condition, RealLeaf.condition__, NominalLeaf.condition__"]}
{"id": "C25", "title": "Conditioning fails exactly on impossible events", "statement": "spe.condition(E) raises on events of probability zero, never returns for them, and returns for events of positive probability.", "quantifier": "all sum-product expressions, all events", "why_tests_cant": "The input space (sets, endpoints, nesting) is infinite; a test fixes a few literals.", "anchors": ["src/spe.py: condition, condition_mem, condition__"]}
{"id": "C26", "title": "Mixture construction keeps the distribution", "statement": "SumSPE(children, weights), which flattens nested sums, represents the mixture of its children with those weights, and its weights again total one.", "quantifier": "all lists of children and weights, any nesting", "why_tests_cant": "The input space (sets, endpoints, nesting) is infinite; a test fixes a few literals.", "anchors": ["src/spe.py: SumSPE.__init__, ExposedSumSPE, PartialSumSPE, SPE.__rmul__, SPE.__or__"]}
{"id": "C27", "title": "Product construction keeps the distribution", "statement": "ProductSPE(children), which flattens nested products, represents the independent product of its children; variables are disjoint.", "quantifier": "all lists of children, any nesting", "why_tests_cant": "The input space (sets, endpoints, nesting) is infinite; a test fixes a few literals.", "anchors": ["src/spe.py: ProductSPE.__init__, SPE.__and__"]}
{"id": "C28", "title": "Simplifying a sum keeps the distribution", "statement": "spe_simplify_sum(s) represents the same distribution as s.", "quantifier": "all sums of leaves or products, all weights, every hash function", "why_tests_cant": "The input space (sets, endpoints, nesting) is infinite; a test fixes a few literals.", "anchors": ["src/spe.py: spe_simplify_sum, spe_simplify_sum_leaf, spe_simplify_sum_product, spe_simplify_sum_product_helper", "src/sym_util.py: partition_list_blocks"]}
{"id": "C29", "title": "Sharing duplicate subtrees keeps the distribution", "statement": "spe_cache_duplicate_subtrees(s, memo) represents the same distribution as s, for whatever was already in the memo table.", "quantifier": "all sum-product expressions, all consistent memo tables", "why_tests_cant": "The input space (sets, endpoints, nesting) is infinite; a test fixes a few literals.", "anchors": ["src/spe.py: spe_cache_duplicate_subtrees"]}
{"id": "C30", "title": "Memoisation never changes an answer", "statement": "For any history of logprob, condition, logpdf and constrain queries sharing one memo table, each answer equals the answer computed with a fresh table.", "quantifier": "all histories of queries, all sum-product expressions with distinct identities", "why_tests_cant": "It is a property of every query history and of the table left by it.", "anchors": ["src/spe.py: memoize, SPE.get_memo_key, Memo"]}
{"id": "C31", "title": "Derived variables have the transformed distribution", "statement": "After s2 = spe.transform(Y, f), events on old variables keep their probability, and an event on Y has the probability of the same event on f.", "quantifier": "all sum-product expressions, all transforms on their variables, all events", "why_tests_cant": "The input space (sets, endpoints, nesting) is infinite; a test fixes a few literals.", "anchors": ["src/spe.py: SumSPE.transform, ProductSPE.transform, RealLeaf.transform, AtomicLeaf.transform"]}
{"id": "C32", "title": "The set of variables is tracked correctly", "statement": "condition keeps get_symbols() unchanged; transform adds exactly the new variable; & adds exactly the other operand's variables; all children of a sum have equal symbols and all children of a product disjoint ones.", "quantifier": "all sum-product expressions and all histories of operations", "why_tests_cant": "The input space (sets, endpoints, nesting) is infinite; a test fixes a few literals.", "anchors": ["src/spe.py: get_symbols, SumSPE.__init__, ProductSPE.__init__, condition, constrain, transform"]}
{"id": "C33", "title": "if/elif/else means the law of total probability", "statement": "Interpreting IfElse over spe gives the mixture in which branch i is run on spe conditioned on 'condition i holds and no earlier one does', weighted by that probability; if branches only add variables, old variables keep their distribution.", "quantifier": "all prior distributions, all branch lists, all subcommands", "why_tests_cant": "The input space (sets, endpoints, nesting) is infinite; a test fixes a few literals.", "anchors": ["src/compilers/ast_to_spe.py: IfElse.interpret, interpret_if_block"]}
{"id": "C34", "title": "switch means first match", "statement": "Interpreting Switch selects for each value of the variable the first matching case, with cases made disjoint.", "quantifier": "all prior distributions, all case lists of sets or values", "why_tests_cant": "The input space (sets, endpoints, nesting) is infinite; a test fixes a few literals.", "anchors": ["src/compilers/ast_to_spe.py: Switch.interpret, value_to_set"]}
{"id": "C35", "title": "Sequence and For compose", "statement": "Sequence(c1, c2) interprets c2 on the result of c1; nesting of sequences is irrelevant; For(n0, n1, f) equals the sequence f(n0), ..., f(n1-1).", "quantifier": "all commands, all bounds", "why_tests_cant": "The input space (sets, endpoints, nesting) is infinite; a test fixes a few literals.", "anchors": ["src/compilers/ast_to_spe.py: Sequence, For, Skip, Sample"]}
{"id": "C36", "title": "Densities combine with the lexicographic rule", "statement": "logpdf of a product adds the densities and dimensions; logpdf of a sum mixes exactly the children of least dimension and positive density; on assignments of atoms only it is the probability of the assignment.", "quantifier": "all sum-product expressions, all assignments", "why_tests_cant": "The input space (sets, endpoints, nesting) is infinite; a test fixes a few literals.", "anchors": ["src/spe.py: SPE.logpdf, SumSPE.logpdf_mem, ProductSPE.logpdf_mem, logpdf__ methods"]}
{"id": "C37", "title": "Constraining fixes the assigned variables", "statement": "If spe.constrain(assignment) returns s then under s every assigned variable has its assigned value with probability one, and when every leaf involved is discrete s is the conditional distribution given the assignment.", "quantifier": "all sum-product expressions, all assignments", "why_tests_cant": "The input space (sets, endpoints, nesting) is infinite; a test fixes a few literals.", "anchors": ["src/spe.py: SPE.constrain, SumSPE.constrain_mem, ProductSPE.constrain_mem, constrain__ methods"]}
{"id": "C38", "title": "Mutual information is well defined", "statement": "mutual_information(A, B) computed from reported probabilities is nonnegative, symmetric, and zero when A and B are independent.", "quantifier": "all sum-product expressions, all events A, B", "why_tests_cant": "The input space (sets, endpoints, nesting) is infinite; a test fixes a few literals.", "anchors": ["src/spe.py: SPE.mutual_information"]}
{"id": "C39", "title": "Serialisation round-trips", "statement": "spe_from_dict(spe_to_dict(s)) equals s.", "quantifier": "all sum-product expressions", "why_tests_cant": "The input space (sets, endpoints, nesting) is infinite; a test fixes a few literals.", "anchors": ["src/compilers/spe_to_dict.py: spe_to_dict, spe_from_dict, env_to_dict, env_from_dict"]}
{"id": "C40", "title": "Rendering as a program round-trips", "statement": "Interpreting the program rendered for s gives the same distribution on the variables of s.", "quantifier": "all sum-product expressions that can be rendered", "why_tests_cant": "The input space (sets, endpoints, nesting) is infinite; a test fixes a few literals.", "anchors": ["src/compilers/spe_to_sppl.py: render_sppl, _render_sppl"]}
{"id": "C41", "title": "Sampling returns the requested number of complete samples", "statement": "sample(N) returns exactly N samples, each assigning exactly the variables of the expression, each drawn inside the support, with derived variables consistent; samples are independent of each other.", "quantifier": "all sum-product expressions, all N, every outcome of the random source", "why_tests_cant": "The input space (sets, endpoints, nesting) is infinite; a test fixes a few literals.", "anchors": ["src/spe.py: sample, sample_subset, SumSPE.sample_many, ProductSPE.sample_subset, LeafSPE.sample, merge_samples"]}
{"id": "C42", "title": "Nested if statements compile to flat branch lists faithfully", "statement": "Flattening an if/elif/else chain of the source program gives a branch list that selects the same body in every state.", "quantifier": "all if chains of any depth, all truth values of the tests", "why_tests_cant": "The input space (sets, endpoints, nesting) is infinite; a test fixes a few literals.", "anchors": ["src/compilers/sppl_to_python.py: unroll_if, unroll_ifexp, SPPL_Visitor.visit_If"]}
{"id": "C43", "title": "Source comparisons are rewritten faithfully", "statement": "The rewriting of ==, !=, in, not in in conditions of the source program into set-membership events keeps their meaning.", "quantifier": "all comparison expressions", "why_tests_cant": "The input space (sets, endpoints, nesting) is infinite; a test fixes a few literals.", "anchors": ["src/compilers/sppl_to_python.py: SPPL_Transformer_Compare"]}
{"id": "C44", "title": "Numerical polynomial solver is exact given exact roots", "statement": "Given the exact real roots, the fallback solver for p(x) < b, p(x) <= b and p(x) = b returns the exact solution set whenever it returns; it returns whenever there is a real root and none is repeated, and raises otherwise.", "quantifier": "all polynomials, all bounds, both strictnesses", "why_tests_cant": "The input space (sets, endpoints, nesting) is infinite; a test fixes a few literals.", "anchors": ["src/poly.py: solve_poly_inequality_numerically, solve_poly_inequality_inf, solve_poly_equality_numerically"]}
{"id": "C45", "title": "Discrete leaves handle every interval", "statement": "For an integer-valued leaf the probability of an interval with arbitrary real endpoints is the sum of the masses of the integers in it.", "quantifier": "all intervals, all integer distributions", "why_tests_cant": "The input space (sets, endpoints, nesting) is infinite; a test fixes a few literals.", "anchors": ["src/spe.py: DiscreteLeaf.logprob_interval__", "src/math_util.py: float_to_int, int_or_isinf_neg, int_or_isinf_pos"]}
{"id": "C46", "title": "Contiguous partition of integer points", "statement": "Conditioning a discrete leaf on finitely many integers splits them into maximal runs; the runs are disjoint, ordered, cover exactly the given points, and each is represented by a range with those integers.", "quantifier": "all finite sets of integers", "why_tests_cant": "The input space (sets, endpoints, nesting) is infinite; a test fixes a few literals.", "anchors": ["src/sym_util.py: partition_finite_real_contiguous", "src/spe.py: RealLeaf.flatten_values_contiguous", "src/sets.py: Range"]}
{"id": "C47", "title": "Compiled programs mean what the source says", "statement": "If a source program compiles and runs, the sum-product expression it returns has the distribution that the source program describes when its statements are read as a generative process: sampling, deterministic transforms, conditioning, if/elif/else and conditional expressions, for loops over ranges, switches. The names used in it have the values Python gives them.", "quantifier": "all programs of any length and nesting without constrain, chained comparisons, and/or/not, and branches containing only pass", "why_tests_cant": "There are infinitely many programs, and the distribution of a program is compared as a whole, not on a few events.", "anchors": ["src/compilers/sppl_to_python.py: SPPL_Visitor, SPPL_Transformer_Compare, SPPL_Compiler", "src/compilers/ast_to_spe.py"]}
{"id": "C48", "title": "Named distributions get their support", "statement": "For each named distribution (norm, beta, poisson, ...) and any keyword arguments that SciPy accepts, the domain attached to the leaf contains every value that the distribution can take, including the effect of loc and scale, and nothing else; so X >> d() returns an expression in which X has exactly the law of d.", "quantifier": "all 97 continuous and 15 discrete classes, all accepted parameters", "why_tests_cant": "The parameters range over the reals; a domain can be right for the parameters tried and lose probability for others (loc, scale, negative values).", "anchors": ["src/distributions.py: RealDistribution and its subclasses", "src/distributions.py: RealsPosLoc, UnitIntervalLocScale"]}
{"id": "C49", "title": "Mixtures and finite distributions", "statement": "w1*d1 | w2*d2 | ... gives the variable the weighted sum of the laws of d1, d2, ..., each with its own weight, whenever the weights lie strictly between 0 and 1 and total 1; weights outside (0,1) or totalling more than 1 are refused. atomic(loc=k) is the point mass at k, discrete({k: p}) gives k the probability p, and uniformd gives the n values probability 1/n each.", "quantifier": "all numbers of components, all weights, all distributions", "why_tests_cant": "Numbers of components, weights and laws are unbounded, and the law is compared on every bounded function.", "anchors": ["src/distributions.py: Distribution.__rmul__, DistributionMix", "src/distributions.py: atomic, rv_discrete, uniformd, discrete"]}
{"id": "C50", "title": "Evaluating an event at given values tells whether it holds", "statement": "Given values for all its variables, event.evaluate returns, and its answer is true exactly if the event, read as the comparison of its transforms with its sets joined by and/or, holds at these values; transform.evaluate returns the value of the transform; outside the domain it raises and never answers.", "quantifier": "all transforms and events of any depth, all assignments", "why_tests_cant": "Transforms nest without bound and values range over the reals; an answer can be right on all tried values and wrong between branches of an Or.", "anchors": ["src/transforms.py: Transform.evaluate, ffwd of each class", "src/transforms.py: EventBasic.evaluate, EventOr.evaluate, EventAnd.evaluate"]}
{"id": "C51", "title": "The translator accepts exactly the programs of the language", "statement": "A source program is translated if and only if it follows the rules of the language: random names are declared once (arrays at the top level, variables outside loops), alternatives of an if assign only declared names, elements are assigned only of declared arrays, distributions stand only as the whole value or in a mixture, constants come at the top level before any sampling, every if has an elif or else, every for is over a range or a switch, condition and constrain have one argument. Every other program is refused with an error and never translated in part.", "quantifier": "all programs of any length and nesting", "why_tests_cant": "There are infinitely many ill-formed programs; a visitor that overlooks one kind of expression or context accepts programs that no test tried.", "anchors": ["src/compilers/sppl_to_python.py: SPPL_Visitor (visit_Assign*, visit_For*, visit_If, visit_Call)", "src/compilers/sppl_to_python.py: SPPL_Visitor_Name, unroll_if, unroll_ifexp"]}
{"id": "C52", "title": "Equal transforms, events and expressions have equal hashes", "statement": "Whenever a == b for two transforms, events or sum-product expressions, hash(a) == hash(b), so that they can be looked up in dictionaries and sets.", "quantifier": "all pairs of transforms, events and expressions of any depth", "why_tests_cant": "Two objects can be equal without being built alike (1/2 and 2/4, sets in another order, the complement of a complement); there are infinitely many such pairs.", "anchors": ["src/transforms.py: __eq__ and __hash__ of each class", "src/spe.py: __eq__ and __hash__ of SumSPE, ProductSPE, RealLeaf, AtomicLeaf, NominalLeaf"]}
{"id": "C53", "title": "The preprocessor turns the lines of an SPPL program into the intended lines of Python", "statement": "On the text of a program, SPPL_Compiler.preprocess removes blank lines, writes = for every ~=, turns the head of a switch, switch (E) cases (V in S):, into for V in switch(E, S): with its indentation and with what follows the colon, and leaves every other line as it is.", "quantifier": "all programs with any number of lines of any length, any spaces, and any expressions E, V and S", "why_tests_cant": "The rewriting is done by a greedy regular expression that can match in many ways, also across lines; texts are unbounded.", "anchors": ["src/compilers/sppl_to_python.py: SPPL_Compiler.preprocess"]}
{"id": "C54", "title": "The probability of any comparison of variables can be computed", "statement": "For an expression and an event that combines comparisons (X < c, X == c, X << {...}, also empty ones) of those of its variables that are not derived from others with & and |, logprob returns a number, the logarithm of the event's probability, instead of raising an error; and so it does after any other queries in the same memo.", "quantifier": "all expressions, all events of any size and nesting, all histories of queries", "why_tests_cant": "The solver has many places where it can raise (intersections, unions, normal forms, products); which of them an event reaches depends on the shape of the event and on the end points of every support.", "anchors": ["src/spe.py: logprob of every class", "src/dnf.py: dnf_normalize, dnf_to_disjoint_union", "src/sets.py: Union.__init__, __and__, __or__", "src/transforms.py: solve, __and__, __or__"]}
{"id": "C55", "title": "A program that has a meaning compiles", "statement": "Interpreting a command that samples variables, defines functions of them, conditions, branches with IfElse and Switch, loops and composes, from the empty state, returns an expression and raises no error, whenever every distribution can be made, no variable is sampled or defined twice, every defined function has a value, every Condition has positive probability where it is reached, and the branches of every IfElse and Switch cover the possible values. The expression has the program's variables and joint distribution, and then answers the probability of any combination of comparisons of them.", "quantifier": "all commands of any size and nesting, all numbers of variables, branches and iterations", "why_tests_cant": "Whether a command raises depends on the shape of the expression that all earlier commands leave: the normal forms, the simplification of mixtures and the supports of the leaves; programs nest without bound.", "anchors": ["src/compilers/ast_to_spe.py: interpret of every command", "src/spe.py: logprob, condition, SumSPE, ProductSPE", "src/spe_simplify.py"]}
{"id": "C56", "title": "A comparison with a solution method is solved", "statement": "event.solve() returns a set and raises no error when the event compares a chain of functions of one variable (radicals, exponentials, logarithms, absolute values, reciprocals, linear and quadratic polynomials) with a number, the ends of an interval, or several numbers, and when it is a disjunction of such events, or of conjunctions of such events whose functions are one-to-one; the set holds exactly the numbers at which the event is true.", "quantifier": "all chains of any length, all coefficients, bases, intervals and finite sets of numbers, all disjunctions of any length", "why_tests_cant": "The shape of the set passed to each function depends on all functions above it, and the set operations raise only for some shapes; chains are unbounded and the numbers range over the reals.", "anchors": ["src/transforms.py: Event.solve, EventBasic.solve, invert, invert_finite, invert_interval", "src/poly.py: solve_poly_equality, solve_poly_inequality", "src/sets.py: Union, __and__, __or__, __invert__"]}
{"id": "C57", "title": "Questions about derived variables are answered", "statement": "logprob(e) returns the probability of e and raises no error when e is a combination of comparisons of variables of the expression, where a variable may be one that transform defined from another, through any number of definitions, as a chain of functions (radicals, exponentials, logarithms, absolute values, reciprocals, linear and quadratic polynomials).", "quantifier": "all expressions of any size and nesting, all chains of definitions of any length, all events, all histories of earlier queries", "why_tests_cant": "A question about a derived variable is rewritten leaf by leaf through the chain of definitions and solved there; whether the sets that arise can be handled depends on the chain, on the support of every leaf and on the numbers in the event.", "anchors": ["src/spe.py: SPE.logprob, LeafSPE.logprob_mem, LeafSPE.subs, RealLeaf.logprob_mem__, AtomicLeaf", "src/transforms.py: Event.solve, substitute, invert", "src/sets.py: Interval.__and__, union"]}
{"id": "C58", "title": "Questions about functions of variables are answered, and conditions on them accepted", "statement": "logprob(e) returns a number and raises no error when e is a combination, by and / or, of comparisons of variables of the expression and of comparisons of chains of functions of them (radicals, exponentials, logarithms, absolute values, reciprocals, linear and quadratic polynomials) with a number, the ends of an interval or several numbers. The number is the probability of e when the functions are defined almost surely. condition(e) returns the conditional distribution of the expression when the probability of e is not zero.", "quantifier": "all expressions of any size and nesting, all events of any size and depth, all chains of functions of any length, all histories of earlier queries", "why_tests_cant": "The event is brought into disjunctive normal form, its literals are grouped by variable, solved and turned into events on variables again; each step raises for some shapes of sets only, and the shapes depend on the numbers and on the other literals.", "anchors": ["src/spe.py: SPE.logprob, SPE.condition, LeafSPE.logprob, SumSPE.logprob_mem, ProductSPE.logprob_mem", "src/dnf.py: dnf_normalize, dnf_factor", "src/transforms.py: Event.solve, to_dnf, invert", "src/sets.py: Interval.__and__, union"]}
{"id": "C59", "title": "Polynomials are compared with infinite bounds exactly", "statement": "A polynomial has one value at every number and, as its limit, at oo and -oo; Poly.ffwd computes it. For an infinite b, solve_poly_equality(p, b) returns exactly the arguments, finite or infinite, at which the value of p is b, and solve_poly_inequality(p, b, strict, extended) exactly those at which the value is less than b (or at most b), where only finite arguments count if extended is False. They raise only for constant polynomials. Poly.range() contains every value and Poly.finv(y) every argument with value y.", "quantifier": "all polynomials of any degree, all coefficients, both infinite bounds, both strictnesses, both values of extended", "why_tests_cant": "Limits depend on the parity of an unbounded degree and on the sign of the leading coefficient, after zero coefficients; a test fixes a few polynomials, and the test of the strict inequality builds the expected set with the operation that loses the infinite solutions.", "anchors": ["src/poly.py: solve_poly_inequality_inf, solve_poly_equality_inf", "src/transforms.py: Poly.ffwd, Poly.range, Poly.finv"]}
{"id": "C60", "title": "Observations can be made one at a time, in any order", "statement": "If spe is replaced by spe.condition(E) for each event E of a list, the last expression represents the distribution given all events; the order of the list and repetitions do not matter, and one condition on their conjunction gives the same; the calls return exactly if the events are possible together; later calls of logprob return the conditional probabilities given all observations.", "quantifier": "all sum-product expressions, all finite lists of events, all orders, all later questions", "why_tests_cant": "Lists of observations and the expressions that intermediate steps produce are unbounded; each step changes supports, weights and the shape of the expression that the next step works on.", "anchors": ["src/spe.py: BranchSPE.condition, BranchSPE.logprob, LeafSPE.condition, SumSPE.condition_mem, ProductSPE.condition_mem"]}
{"id": "C61", "title": "Whether a set operation returns does not depend on frozenset iteration order", "statement": "For the same operands of A & B, A | B and ~A, either every iteration order of frozensets gives a result or none does.", "quantifier": "all well-formed sets, all pairs of iteration orders", "why_tests_cant": "The hash of a set includes the address of its class, so the order is fixed within a process and can change in the next; a test that passes in one process may fail in another.", "anchors": ["src/sets.py: Union.__and__, Union.__or__, Union.__invert__, Interval.__hash__"]}
{"id": "C62", "title": "The same question has the same answer in every process", "statement": "If spe.logprob(event) returns in two processes, the two values are logarithms of the same probability; if spe.condition(event) returns in two processes, the two results have the same distribution. Likewise for mutual_information, and for the expressions to which a program compiles. The processes may differ in the iteration order of frozensets and sets of strings, in the addresses and hashes of objects, and in what SymPy returns within its contract.", "quantifier": "all well-formed SPEs, all events regular on their support, all pairs of process environments", "why_tests_cant": "Hash seeds, addresses and the answers of SymPy are fixed within a process; no test runs over all of them.", "anchors": ["src/spe.py: logprob, condition", "src/dnf.py: dnf_to_disjoint_union, dnf_factor", "src/sets.py: Union.__and__, Union.__or__", "src/compilers/ast_to_spe.py: interpret"]}
