{
 "claims": [
  {
   "property": "C01",
   "status": "proved",
   "theorems": [
    "C01_intersection_exact",
    "C01_intersection_sound"
   ],
   "note": "Exact on finite numbers and strings; infinite points are never invented."
  },
  {
   "property": "C02",
   "status": "proved",
   "theorems": [
    "C02_union_exact",
    "C02_union_sound",
    "C02_union_total",
    "C02_union_total_refuted",
    "C02_union_infinite_refuted"
   ],
   "note": "Exact on finite points, sound everywhere, total on sets of numbers. The refuted theorems show that the other cases fail: a union of strings and isolated numbers joined with a number raises IndexError, and infinite points can be lost."
  },
  {
   "property": "C03",
   "status": "proved",
   "theorems": [
    "C03_complement_real",
    "C03_complement_nominal",
    "C03_complement_mixed_refuted"
   ],
   "note": "For purely real and purely nominal sets. The refuted theorem shows that the complement of a mixed set is wrong."
  },
  {
   "property": "C04",
   "status": "proved",
   "theorems": [
    "C04_well_formed"
   ],
   "note": "For every set reachable through constructors and operators."
  },
  {
   "property": "C05",
   "status": "partial",
   "theorems": [
    "C05_basic_intersection_total",
    "C05_interval_complement_total",
    "C05_finite_complement_total_iff",
    "C05_intersection_total_refuted",
    "C05_complement_total_refuted",
    "C05_intersection_exactly",
    "C05_intersection_exactly_left",
    "C05_intersection_open_total",
    "C05_unions_exactly",
    "C05_closed_complement_exactly",
    "C05_mixed_refuted"
   ],
   "note": "The code violates the full claim: see the two refuted theorems (union & interval, and double complement). Proved exactly: intersections of basic sets and complements of intervals always return; a complement of a finite set, or of a union of parts that contain their finite ends, returns exactly when all its isolated points are finite; an intersection of a union with a basic set, or of two unions of which one has numbers only, returns exactly when no basic set of the second operand meets two different parts of the first in isolated points. Outside these it depends on the iteration order of frozensets (C61): complements of unions with open ends, and two unions that both have strings (C05_mixed_refuted)."
  },
  {
   "property": "C06",
   "status": "proved",
   "theorems": [
    "C06_nonempty_has_member",
    "C06_intersection_empty"
   ],
   "note": ""
  },
  {
   "property": "C07",
   "status": "proved",
   "theorems": [
    "C07_order_independent_and",
    "C07_order_independent_or",
    "C07_order_independent_inv"
   ],
   "note": ""
  },
  {
   "property": "C08",
   "status": "proved",
   "theorems": [
    "C08_contains_number",
    "C08_contains_string",
    "C08_number_in_nominal_refuted"
   ],
   "note": "Numbers against sets of numbers, strings against all sets. The refuted theorem shows numbers against complemented nominal sets."
  },
  {
   "property": "C09",
   "status": "partial",
   "theorems": [
    "C09_equal_hash_unflagged_partial",
    "C09_equal_members",
    "C09_equal_hash_partial",
    "C09_equal_hash_refuted"
   ],
   "note": "Equal members for all sets, equal hashes for sets of numbers, and for all sets in which no FiniteNominal stores the flag False (C09_equal_hash_unflagged_partial). The refuted theorem shows equal nominal sets with different hashes."
  },
  {
   "property": "C10",
   "status": "proved",
   "theorems": [
    "C10_invert_exact",
    "C10_invert_exact_infinite",
    "C10_invert_exact_plain",
    "C10_piecewise_disjoint",
    "C10_small_base_refuted",
    "C10_small_base_raises_refuted",
    "C10_singular_refuted",
    "C10_compound_zero_refuted"
   ],
   "note": "The conditions (base above 1, regular points) are necessary: see the refuted theorems. SymPy's root finding is an oracle."
  },
  {
   "property": "C11",
   "status": "proved",
   "theorems": [
    "C11_solve_exact",
    "C11_solve_exact_plain",
    "C11_nominal_transform_refuted"
   ],
   "note": "Same conditions as C10; refuted for complemented nominal events on a transform."
  },
  {
   "property": "C12",
   "status": "proved",
   "theorems": [
    "C12_add_number",
    "C12_sub_number",
    "C12_mul_number",
    "C12_div_number",
    "C12_div_by_transform",
    "C12_neg",
    "C12_abs",
    "C12_add",
    "C12_add_piecewise",
    "C12_sub",
    "C12_mul",
    "C12_mul_event",
    "C12_pow_positive",
    "C12_pow_negative",
    "C12_root",
    "C12_root_reciprocal",
    "C12_exponential",
    "C12_logarithm",
    "C12_rsub_refuted",
    "C12_rsub_value",
    "C12_pow_one_refuted"
   ],
   "note": "Each operator of the source. c - t and t**(1/1) are wrong in the source: C12_rsub_refuted, C12_rsub_value, C12_pow_one_refuted."
  },
  {
   "property": "C13",
   "status": "proved",
   "theorems": [
    "C13_and",
    "C13_or",
    "C13_not",
    "C13_not_defined",
    "C13_xor",
    "C13_and_false",
    "C13_or_false",
    "C13_not_and_refuted",
    "C13_not_empty_nominal_refuted"
   ],
   "note": "C13_not_and_refuted and C13_not_empty_nominal_refuted show the condition on falsity is needed."
  },
  {
   "property": "C14",
   "status": "proved",
   "theorems": [
    "C14_le",
    "C14_lt",
    "C14_ge",
    "C14_gt",
    "C14_total",
    "C14_chain_lower",
    "C14_chain_upper",
    "C14_in_set",
    "C14_in_list",
    "C14_bound_refuted"
   ],
   "note": "Comparison with -oo raises: C14_bound_refuted."
  },
  {
   "property": "C15",
   "status": "proved",
   "theorems": [
    "C15_to_dnf"
   ],
   "note": ""
  },
  {
   "property": "C16",
   "status": "proved",
   "theorems": [
    "C16_clauses",
    "C16_meaning",
    "C16_keys",
    "C16_default_keys",
    "C16_total"
   ],
   "note": "For every lookup; also total on disjunctive normal forms whose literals constrain variables directly."
  },
  {
   "property": "C17",
   "status": "proved",
   "theorems": [
    "C17_some",
    "C17_none",
    "C17_plain",
    "C17_empty_is_none_refuted"
   ],
   "note": "At assignments where the event's transforms are applied inside their domains (no condition for plain events). The refuted theorem: an empty literal is returned unchanged, not as None."
  },
  {
   "property": "C18",
   "status": "proved",
   "theorems": [
    "C18_disjoint",
    "C18_sound",
    "C18_complete",
    "C18_partition",
    "C18_mixed_sorts_refuted"
   ],
   "note": "Disjointness, soundness and shape always; completeness for assignments whose values have the sorts used in the event. The refuted theorem shows that mixing strings and numbers on one variable loses assignments. Termination of the refinement loop is not proved (fuel)."
  },
  {
   "property": "C19",
   "status": "proved",
   "theorems": [
    "C19_substitute_faithful",
    "C19_substitute_good",
    "C19_substitute_base",
    "C19_substitute_total",
    "C19_cyclic_refuted"
   ],
   "note": "Terminates for environments built by transform(); C19_cyclic_refuted shows a cyclic environment loops for ever."
  },
  {
   "property": "C20",
   "status": "proved",
   "theorems": [
    "C20_log1mexp",
    "C20_log1mexp_inf",
    "C20_logdiffexp",
    "C20_logdiffexp_raises",
    "C20_logsumexp",
    "C20_logsumexp_raises",
    "C20_exp_inj",
    "C20_lognorm",
    "C20_logflip"
   ],
   "note": "The log-space helpers of math_util.py over an abstract log-number system with a real instance and a rational instance."
  },
  {
   "property": "C21",
   "status": "proved",
   "theorems": [
    "C21_leaf",
    "C21_leaf_memo"
   ],
   "note": "Every leaf kind, event and environment of derived variables within the stated conditions; distributions are given by their law (contract dist_ok, met by the instances in Instances.v)."
  },
  {
   "property": "C22",
   "status": "proved",
   "theorems": [
    "C22_logprob"
   ],
   "note": "For every run from a memo table whose entries are valid, in particular the empty one. Values of variables must have the sorts used in the event."
  },
  {
   "property": "C23",
   "status": "proved",
   "theorems": [
    "C23_bounds",
    "C23_equivalent",
    "C23_implied",
    "C23_complement",
    "C23_disjoint",
    "C23_inclusion_exclusion"
   ],
   "note": "About the numbers logprob returns, hence through the code path, not only about the specification."
  },
  {
   "property": "C24",
   "status": "proved",
   "theorems": [
    "C24_given",
    "C24_bayes",
    "C24_twice",
    "C24_certain"
   ],
   "note": "condition returns an expression whose law is the conditional law; also Bayes' rule through logprob, conditioning twice, conditioning on a certain event."
  },
  {
   "property": "C25",
   "status": "partial",
   "theorems": [
    "C25_positive_mixture_refuted",
    "C25_positive_partial",
    "C25_conjunctions_partial",
    "C25_exactly_partial",
    "C25_after_partial",
    "C25_null_partial",
    "C25_positive_refuted",
    "C25_positive_continuous_refuted",
    "C25_zero_weight_refuted"
   ],
   "note": "Proved: condition never returns for events of probability zero (C25_null_partial). It returns the conditional distribution for every event of positive probability that combines comparisons of variables with & and |, given enough rounds of the loop that makes clauses disjoint, where the compared variables are not derived from others, when discrete leaves are compared with integers only, the supports of numeric leaves outside products are open or end at numbers not compared with, a continuous leaf on its own is asked about events without isolated numbers, and a sum has only continuous leaves, or no continuous leaves, outside products (C25_positive_partial); for conjunctions, without the conditions on supports, isolated numbers and rounds, it returns exactly when the probability is not zero (C25_conjunctions_partial, C25_exactly_partial, C25_after_partial). Beyond those conditions the code violates the property: the refuted theorems give events of positive probability on which condition raises."
  },
  {
   "property": "C26",
   "status": "proved",
   "theorems": [
    "C26_sum",
    "C26_sum_total",
    "C26_sum_refuses",
    "C26_sum_flat",
    "C26_mixture",
    "C26_mixture_total",
    "C26_exposed"
   ],
   "note": "Constructor, operators x*s | y*t (PartialSumSPE) and ExposedSumSPE."
  },
  {
   "property": "C27",
   "status": "proved",
   "theorems": [
    "C27_case_value",
    "C27_product",
    "C27_independent",
    "C27_events",
    "C27_and",
    "C27_total",
    "C27_refuses",
    "C27_flat"
   ],
   "note": ""
  },
  {
   "property": "C28",
   "status": "partial",
   "theorems": [
    "C28_refuted",
    "C28_simplify"
   ],
   "note": "The claim for every hash function is false: spe_simplify_sum_leaf merges leaves by hash without comparing them (C28_refuted; in CPython the atoms -1 and -2 of a variable have one hash). Proved for sums of products, and for sums of leaves when leaves with one hash are equal."
  },
  {
   "property": "C29",
   "status": "proved",
   "theorems": [
    "C29_refuted",
    "C29_share"
   ],
   "note": "When the atoms of one variable carry one environment (true of expressions built by transform on the whole expression); C29_refuted shows the condition is needed, since AtomicLeaf.__eq__ ignores the environment."
  },
  {
   "property": "C30",
   "status": "proved",
   "theorems": [
    "C30_all_logprob",
    "C30_all_condition",
    "C30_all_logpdf",
    "C30_all_constrain",
    "C30_all_logpdf_fresh",
    "C30_all_constrain_fresh",
    "C30_all_logprob_fresh",
    "C30_all_condition_fresh",
    "C30_information",
    "C30_information_logprob",
    "C30_information_condition",
    "C30_logprob",
    "C30_condition",
    "C30_logprob_fresh",
    "C30_condition_fresh"
   ],
   "note": "C30_all_*: histories of all four kinds of queries on one table. The answer with the history and the answer with a fresh table denote the same number, respectively the same law (numbers equal under == may have different representations). C30_information: mutual_information with the caller's table gives the same value after any history, and leaves a table in which later answers are right (C30_information_logprob, C30_information_condition). The four *_fresh theorems compare directly with the fresh table. That a query raises in one case exactly if it raises in the other is not stated."
  },
  {
   "property": "C31",
   "status": "proved",
   "theorems": [
    "C31_law",
    "C31_returns",
    "C31_old",
    "C31_new",
    "C31_substitute",
    "C31_logprob_old",
    "C31_logprob_new"
   ],
   "note": "For transforms that are almost surely defined, and applied inside their domains. C31_returns: transform returns exactly when the name is new and every product has a numeric leaf with all the variables of the definition."
  },
  {
   "property": "C32",
   "status": "proved",
   "theorems": [
    "C32_derived_refuted",
    "C32_symbols",
    "C32_nodup",
    "C32_condition",
    "C32_transform",
    "C32_and",
    "C32_sum",
    "C32_product",
    "C32_mixture",
    "C32_exposed",
    "C32_simplify",
    "C32_constrain"
   ],
   "note": "constrain keeps the variables too, except the derived variables of an assigned leaf (C32_constrain, C32_derived_refuted)."
  },
  {
   "property": "C33",
   "status": "partial",
   "theorems": [
    "C33_void_refuted",
    "C33_mixture",
    "C33_exhaustive",
    "C33_ifelse",
    "C33_keeps",
    "C33_returns_partial"
   ],
   "note": "C33_mixture: whenever the interpreter returns, each branch of positive probability was run on the expression conditioned on 'its condition and no earlier one', and the result is their mixture with these probabilities, for any subcommands; C33_ifelse gives the meaning for whole commands, C33_keeps that commands that only add variables keep the distribution of the old ones. Conditions are on one variable per part, of the right sort, almost surely defined and not about the empty set; C33_void_refuted: a condition about the empty set of a nominal variable makes the interpreter raise. C33_returns_partial: for conditions made of comparisons of variables that are not derived from others (the expression may have derived ones), the interpreter does return when the branches do."
  },
  {
   "property": "C34",
   "status": "partial",
   "theorems": [
    "C34_mixed_refuted",
    "C34_empty_refuted",
    "C34_mixture",
    "C34_exhaustive",
    "C34_switch",
    "C34_first",
    "C34_returns_partial",
    "C34_returns_refuted"
   ],
   "note": "As C33, with the cases of a Switch (strings, numbers, sets); C34_first: the selected case is the first that matches. The cases must have the sort of the variable and not be empty; C34_mixed_refuted and C34_empty_refuted: otherwise the interpreter raises though the cases cover the variable. C34_returns_partial: for strings, sets of strings, numbers and separate intervals of a variable that is not derived from others the interpreter does return when the branches do; C34_returns_refuted: with the disjoint cases 2 and {0, 3} it raises an AssertionError."
  },
  {
   "property": "C35",
   "status": "proved",
   "theorems": [
    "C35_sequence",
    "C35_empty",
    "C35_append",
    "C35_nesting",
    "C35_assoc",
    "C35_for_done",
    "C35_for_step",
    "C35_for",
    "C35_sample",
    "C35_program",
    "C35_after"
   ],
   "note": "All commands, all bounds, any subcommands. C35_program and C35_after: a program without Constrain whose transforms and conditions are well sorted and almost surely defined computes its meaning."
  },
  {
   "property": "C36",
   "status": "partial",
   "theorems": [
    "C36_end_refuted",
    "C36_atom_refuted",
    "C36_zero_weight_refuted",
    "C36_rule",
    "C36_logpdf",
    "C36_atoms",
    "C36_limit",
    "C36_returns_partial",
    "C36_exactly_partial",
    "C36_after_partial"
   ],
   "note": "Proved for every answer that logpdf returns: C36_rule (the lexicographic rule as a recursive density with dimension), C36_atoms (dimension zero: the probability of the assignment), C36_limit (the density is the limit of the probability of shrinking boxes divided by their volume). C36_exactly_partial: logpdf returns exactly for nonempty assignments of finite values to base variables, the same variables in all terms of a sum, that assign no atomic leaf and no string of weight zero; C36_returns_partial and C36_after_partial give the value, also after any history. The code raises for assigned atomic leaves (C36_atom_refuted) and nominal values of weight zero (C36_zero_weight_refuted); the limit fails at the ends of a support (C36_end_refuted)."
  },
  {
   "property": "C37",
   "status": "partial",
   "theorems": [
    "C37_again_refuted",
    "C37_derived_refuted",
    "C37_unknown_refuted",
    "C37_lost_refuted",
    "C37_wf",
    "C37_values",
    "C37_positive",
    "C37_given",
    "C37_limit",
    "C37_exactly_partial",
    "C37_after_partial"
   ],
   "note": "Proved: C37_values, C37_positive, C37_given for assignments to variables of the expression without derived variables; C37_limit (limit of conditioning on shrinking boxes). C37_exactly_partial: when the density can be asked for and assigned leaves have no derived variables, constrain returns exactly if the density is positive, also after any history (C37_after_partial). Refuted: a product ignores variables it does not have (C37_unknown_refuted), derived variables of an assigned leaf are lost (C37_derived_refuted), a sum whose terms lose different variables is refused (C37_lost_refuted), constraining twice raises (C37_again_refuted)."
  },
  {
   "property": "C38",
   "status": "proved",
   "theorems": [
    "C38_case_positive",
    "C38_value",
    "C38_nonneg",
    "C38_symmetric",
    "C38_independent",
    "C38_equivalent",
    "C38_bounded",
    "C38_returns",
    "C38_function_answers",
    "C38_function_answers_everywhere",
    "C38_answers"
   ],
   "note": "For every answer of mutual_information: the value is the sum over the four cells of p(ab) ln(p(ab)/(p(a)p(b))), it is nonnegative, symmetric, zero exactly for independent events, at most the entropy of each event, and ln terms of empty cells count as zero (MISpec.v). C38_returns: it answers whenever negation, conjunction and the logprob calls answer. C38_answers: for expressions that are not a single leaf, whose leaves are open at the numbers compared with, it always answers on combinations of comparisons of variables, and with that value. C38_function_answers: it also answers, with that value, on two comparisons of different variables, each of a chain of functions of a numeric variable with a number (<, <=, >, >=) or of a nominal variable with values, if the functions are defined almost surely; C38_function_answers_everywhere needs no such assumption for functions without roots, logarithms and reciprocals. Logarithms are exact reals."
  },
  {
   "property": "C39",
   "status": "partial",
   "theorems": [
    "C39_rational_refuted",
    "C39_strings_refuted",
    "C39_support_refuted",
    "C39_text",
    "C39_round_trip_partial"
   ],
   "note": "Proved for expressions as the constructors make them whose numbers survive printing and reading (floats, integers). The refuted theorems show that the code loses the rest: constants and endpoints such as 1/3 come back as floats, and FiniteNominal() prints as text that is no Python."
  },
  {
   "property": "C40",
   "status": "partial",
   "theorems": [
    "C40_roundtrip_partial",
    "C40_runs_partial",
    "C40_linear_refuted",
    "C40_reciprocal_refuted",
    "C40_atoms_refuted",
    "C40_infinite_refuted",
    "C40_names_refuted",
    "C40_printable_shows"
   ],
   "note": "Proved for expressions without atoms and array elements, whose derived variables have definitions that are read back as the same function (C40_printable_shows: names, powers of numbers, reciprocals of non-sums, polynomials whose linear coefficient is 0 or 1). C40_roundtrip_partial: the program is written and translated, and any result of running it has the distribution of the expression. C40_runs_partial: when a variable with a discrete leaf has integers as ends of its conditioned leaves, and no derived variable is sampled elsewhere, it also runs to the end. Outside these the code writes programs that fail or mean something else: see the _refuted theorems. Missing: piecewise definitions, arrays."
  },
  {
   "property": "C41",
   "status": "partial",
   "theorems": [
    "C41_count",
    "C41_support",
    "C41_no_failure",
    "C41_subset_count",
    "C41_subset_support",
    "C41_subset_no_failure",
    "C41_func_count",
    "C41_func_support",
    "C41_func_no_failure",
    "C41_possible",
    "C41_subset_possible",
    "C41_func_possible",
    "C41_one",
    "C41_independent_partial",
    "C41_mean_partial",
    "C41_marginal_refuted",
    "C41_independent_refuted",
    "C41_mean_refuted",
    "C41_subset_count_refuted",
    "C41_func_count_refuted",
    "C41_log_refuted",
    "C41_piecewise_refuted",
    "C41_support_refuted"
   ],
   "note": "Proved for sample, sample_subset and sample_func over every outcome of the random source: the number of samples, that each sample has exactly the requested variables, that it is in the support with the derived variables at their defined values, that no failure occurs, and that outcomes exist (C41_count, _support, _no_failure, _possible and their subset and func versions). C41_one: a single sample has the distribution of the expression. Missing: independence and the distribution of individual samples when several are drawn from a mixture, because the code violates them: sample_many shuffles blocks and not samples. C41_independent_partial holds without mixtures, C41_mean_partial (averages are unbiased) with mixtures at the top only; C41_marginal_refuted, C41_independent_refuted and C41_mean_refuted give counterexamples. Other refutations: no requested variables of a product gives no samples, logarithms give sets, piecewise functions raise, uniform() = 0 gives the open right end."
  },
  {
   "property": "C42",
   "status": "proved",
   "theorems": [
    "C42_unroll_if",
    "C42_unroll_ifexp"
   ],
   "note": "C42_unroll_if: in every state the first branch of the list whose test is true runs the statements that the nested if runs; C42_unroll_ifexp: the if made from a conditional expression assigns the selected value. Any nesting."
  },
  {
   "property": "C43",
   "status": "partial",
   "theorems": [
    "C43_condition",
    "C43_in",
    "C43_not_in",
    "C43_eq",
    "C43_ne",
    "C43_chain_refuted",
    "C43_and_refuted",
    "C43_or_refuted",
    "C43_not_refuted",
    "C43_rsub_refuted"
   ],
   "note": "Proved for single comparisons with constants or collections of one sort on the right, and their combinations with &, | and ~ (C43_condition). The code violates the claim for chains (C43_chain_refuted) and for and/or/not (C43_and_refuted, C43_or_refuted, C43_not_refuted), which Python evaluates on the truth of objects; a number minus a variable is wrong (C43_rsub_refuted)."
  },
  {
   "property": "C44",
   "status": "proved",
   "theorems": [
    "C44_inequality_exact",
    "C44_equality_exact",
    "C44_inequality_total",
    "C44_repeated_root_raises",
    "C44_no_root_raises",
    "C44_total_refuted"
   ],
   "note": "Roots come from the oracle for sympy.nroots; rounding of the roots is not modelled."
  },
  {
   "property": "C45",
   "status": "partial",
   "theorems": [
    "C45_refuted",
    "C45_integers",
    "C45_interval_partial",
    "C45_sum_partial",
    "C45_mass",
    "C45_series_partial",
    "C45_logprob"
   ],
   "note": "Proved for every integer-valued leaf (any integer support, conditioned or not): the reported probability of an interval is the sum of the masses logpdf reports for its integers, when a negative finite end is an integer (the condition `rounds`); unbounded intervals as the limit of the sums; through logprob for nonnegative supports. C45_refuted: with a negative end that is not an integer the claim is false, because float_to_int truncates towards zero: logprob(-3/2 <= X <= 1) misses the value -1."
  },
  {
   "property": "C46",
   "status": "proved",
   "theorems": [
    "C46_real_refuted",
    "C46_partition",
    "C46_maximal",
    "C46_ranges",
    "C46_cover"
   ],
   "note": "C46_partition: the runs are nonempty blocks of consecutive numbers, in order, a permutation of the points, with gaps; C46_maximal: for integers no point continues a run; C46_ranges and C46_cover: flatten_values_contiguous returns, and its ranges have exactly the integers of the runs, with a gap between any two. C46_real_refuted shows what happens outside the claim: points that are not integers are refused with an AssertionError."
  },
  {
   "property": "C47",
   "status": "proved",
   "theorems": [
    "C47_translation",
    "C47_names",
    "C47_program",
    "C47_index",
    "C47_pass_refuted",
    "C47_constants_refuted",
    "C47_array_size_refuted"
   ],
   "note": "C47_translation (the command has the meaning of the source), C47_names (the names have the values of the source), C47_program (the returned expression has the distribution of the source). Conditions: tests are conditions as in C43, transforms almost surely have values; branches are not only pass (C47_pass_refuted); no two constant statements have the same text (C47_constants_refuted); C47_array_size_refuted: array sizes see later constants."
  },
  {
   "property": "C48",
   "status": "partial",
   "theorems": [
    "C48_inhabited",
    "C48_wrong_refuted",
    "C48_moved_refuted",
    "C48_domain_partial",
    "C48_exact_partial",
    "C48_leaf_partial"
   ],
   "note": "For 104 of the 112 classes, with loc and scale for those whose domain uses them. The code violates the claim for the others: C48_wrong_refuted shows this for each of genlogistic, gumbel_l, powernorm, tukeylambda, loggamma, cosine, kstwobign and hypergeom, and C48_moved_refuted for each class whose domain ignores loc. For genpareto, boltzmann and geom the domain may be larger than the support. That SciPy's object has the documented support is a hypothesis (documented)."
  },
  {
   "property": "C49",
   "status": "proved",
   "theorems": [
    "C49_weights_checked",
    "C49_mixture",
    "C49_atomic",
    "C49_discrete",
    "C49_uniformd"
   ],
   "note": "scipy.stats.rv_discrete is an oracle whose law is the given one (rv_contract); atoms are non-negative whole numbers."
  },
  {
   "property": "C50",
   "status": "partial",
   "theorems": [
    "C50_log_refuted",
    "C50_piecewise_refuted",
    "C50_sorts_refuted",
    "C50_value",
    "C50_value_sound",
    "C50_event",
    "C50_holds",
    "C50_returns_defined",
    "C50_sound"
   ],
   "note": "Proved for events without logarithms and piecewise transforms: C50_event (an answer, and the right one, where every part is defined), C50_returns_defined and C50_sound (any answer is right, when strings are compared with strings and numbers with numbers). The code violates the rest: evaluating a logarithm gives a set, so comparing it raises (C50_log_refuted); Piecewise has no ffwd (C50_piecewise_refuted); a complement of a nominal set is true at numbers (C50_sorts_refuted)."
  },
  {
   "property": "C51",
   "status": "proved",
   "theorems": [
    "C51_twice_refuted",
    "C51_accepts",
    "C51_refuses",
    "C51_declared",
    "C51_once"
   ],
   "note": "GramSpec.v writes the rules as an inductive judgement on the syntax tree. C51_accepts and C51_refuses for every fuel that covers the nesting depth; C51_declared: the translator's table of names is that of the judgement; C51_once: no name is declared twice. C51_twice_refuted shows what the rules do not give: in alternatives a name may be assigned again."
  },
  {
   "property": "C52",
   "status": "partial",
   "theorems": [
    "C52_flag_refuted",
    "C52_nominal_order_refuted",
    "C52_keywords_order_refuted",
    "C52_transform_partial",
    "C52_expression_partial"
   ],
   "note": "Proved for transforms and events whose sets have no flag False (C52_transform_partial), and for expressions whose dictionaries were filled in the same order (C52_expression_partial), for every hash of numbers, strings and tuples that respects ==. The code violates the rest: ~~e equals e with another hash (C52_flag_refuted); leaves hash the items of their dictionaries in order and compare them without order (C52_nominal_order_refuted, C52_keywords_order_refuted)."
  },
  {
   "property": "C53",
   "status": "partial",
   "theorems": [
    "C53_quoted_refuted",
    "C53_comprehension_refuted",
    "C53_name_refuted",
    "C53_preprocess_partial"
   ],
   "note": "Proved for programs of any number of lines (C53_preprocess_partial) under conditions on the heads of switches: no second cases and no further in followed by a space after V, and no bracket followed by a colon in what follows the head; no line begins with ), :, in or cases. The model is the backtracking engine on the pattern of the code. Without the conditions the code violates the property: C53_comprehension_refuted, C53_name_refuted (the last in of the line is taken), and ~= inside a quoted text is changed (C53_quoted_refuted)."
  },
  {
   "property": "C54",
   "status": "partial",
   "theorems": [
    "C54_normalize",
    "C54_answers_partial",
    "C54_conjunctions_partial",
    "C54_after_partial",
    "C54_closed_support_refuted",
    "C54_union"
   ],
   "note": "The expression may have derived variables; the event compares the others. logprob returns the probability: for any combination of comparisons when the support of each numeric leaf asked about disjunctions is open or ends at numbers that the event does not compare the variable with by <, <=, > or >= (C54_answers_partial; after any history C54_after_partial), for conjunctions of comparisons without that condition (C54_conjunctions_partial); normal forms are always computed (C54_normalize), and the loop that makes their clauses disjoint ends after finitely many rounds (C54_union). When the ends of a closed support are cut points the code violates the property: C54_closed_support_refuted (uniform on [0, 1], (X <= 0) | (X >= 1) raises AssertionError)."
  },
  {
   "property": "C55",
   "status": "partial",
   "theorems": [
    "C55_compiles_refuted",
    "C55_compiles_partial",
    "C55_answers_partial",
    "C55_functions_partial",
    "C55_function_answers_partial"
   ],
   "note": "C55_compiles_partial: programs of Skip, Sample, Transform, Condition, IfElse, Switch, For and Sequence whose conditions combine comparisons of variables with & and | run to the end, and the expression has the program's variables and distribution (ProgSpec.v). The class (compiles, CompileSpec.v) asks: each sample is a leaf or a mixture of leaves, each Transform defines a function of one numeric variable that is almost surely defined and used inside its domain, conditions compare sampled variables, numbers compared with a discrete variable are integers, Conditions and the branches taken have positive probability, branches cover; the cases of a Switch are strings, sets of strings, numbers or intervals disjoint from the earlier ones; while there is only one sampled variable and it is numeric it may be divided once, or conditioned on any number of conjunctions; a division is by cuts inside its support, into parts without isolated numbers if it is continuous. C55_answers_partial: with two or more sampled variables the expression then answers every combination of comparisons of these with the program's probability. C55_functions_partial and C55_function_answers_partial: the class admits (CompileFunSpec.v) also has Conditions, in branches and loops too, that are conjunctions of comparisons of sampled variables and of one-to-one functions of them, where two or more variables are sampled; questions may then compare functions of sampled variables. Missing: Constrain, conditions on variables that Transform defines, further divisions of a single numeric variable. C55_compiles_refuted: a program with a meaning whose Switch has the cases 2 and {0, 3} raises an AssertionError."
  },
  {
   "property": "C56",
   "status": "partial",
   "theorems": [
    "C56_comparison_solved_partial",
    "C56_plain_comparison_solved_partial",
    "C56_combination_solved_partial",
    "C56_several_numbers_refuted"
   ],
   "note": "Proved for comparisons of the chains of SolveSpec.v, and for disjunctions, nested to any depth, of these and of conjunctions of comparisons of one-to-one functions (C56_combination_solved_partial). Missing: reciprocals and exponentials at several numbers, an absolute value above a reciprocal (C56_several_numbers_refuted: these raise), polynomials of degree three and more, a quadratic polynomial of a set of any shape, an absolute value directly below an exponential. SymPy is assumed to solve linear and quadratic equations and inequalities."
  },
  {
   "property": "C57",
   "status": "partial",
   "theorems": [
    "C57_closed_support_refuted",
    "C57_answers_partial",
    "C57_conjunctions_partial",
    "C57_after_partial"
   ],
   "note": "logprob returns the probability when each leaf is asked about one of its variables at most: for any combination of comparisons when leaves that are asked about a derived variable have open supports, or are factors of products and the functions are one-to-one (C57_answers_partial; after any history C57_after_partial); for conjunctions also at closed supports when the functions are one-to-one (C57_conjunctions_partial). Missing: events that compare several variables of one leaf; the chains that C56 leaves out. At a closed support a single comparison of a derived variable can raise: C57_closed_support_refuted (X uniform on [0, 1], Z = |X - 1/2|, Z >= 1/2 raises AssertionError)."
  },
  {
   "property": "C58",
   "status": "partial",
   "theorems": [
    "C58_closed_support_refuted",
    "C58_twice_refuted",
    "C58_answers_partial",
    "C58_after_partial",
    "C58_leaf",
    "C58_leaf_answers",
    "C58_condition_partial",
    "C58_condition_exactly_partial"
   ],
   "note": "For sums and products: C58_answers_partial, after any history C58_after_partial; a variable compared through a function occurs once in each conjunction (any number of times in disjunctions), or any number of times if all functions of it are one-to-one (C58_many_case: four times), and no infinite number solves a comparison (calm). A leaf asked about functions of its variable: C58_leaf, C58_leaf_answers, when its support does not contain its ends. Conditioning: C58_condition_partial and C58_condition_exactly_partial, for sums and products and conjunctions of comparisons of variables and of one-to-one functions of continuous variables. Missing: conditions that are disjunctions or use functions that are not one-to-one, several functions of one variable in a conjunction of which one is not one-to-one, and the chains that C56 leaves out. Both limits are needed: C58_twice_refuted (|X - 1/2| >= 1/2 and 0 <= X <= 1 raises AssertionError), C58_closed_support_refuted (|X - 1/2| >= 1/2 asked of X on [0, 1] raises AssertionError)."
  },
  {
   "property": "C59",
   "status": "partial",
   "theorems": [
    "C59_inequality_refuted",
    "C59_range_refuted",
    "C59_ffwd",
    "C59_equality",
    "C59_equality_returns",
    "C59_inequality_partial",
    "C59_below_infinity",
    "C59_range"
   ],
   "note": "Values: C59_ffwd (limits proved from the definition). Equalities: C59_equality, C59_equality_returns. Inequalities: C59_inequality_partial, all but p < oo with infinite solutions; there the code violates the property: C59_inequality_refuted (10 x - x**3 < oo misses oo), C59_below_infinity says what it returns. Range and finv at infinite values violate the property: C59_range_refuted, C59_range says what they return; at finite values they are C11 and C44."
  },
  {
   "property": "C60",
   "status": "partial",
   "theorems": [
    "C60_steps",
    "C60_order",
    "C60_joint",
    "C60_exactly_partial",
    "C60_answers_partial",
    "C60_functions_partial",
    "C60_function_answers_partial",
    "C60_single_refuted"
   ],
   "note": "For every list of typed events of one variable per part, and any expression: when the calls return, the result is the distribution given all events (C60_steps), orders and repetitions give the same distribution (C60_order), and so does one condition on an equivalent event (C60_joint). The calls return exactly if the events are possible together, and later questions are answered with the conditional probabilities (C60_exactly_partial, C60_answers_partial), for combinations of comparisons of sampled variables with & and |, given enough rounds of the loop that makes clauses disjoint; with only one sampled variable, for single comparisons. There the code violates the rest: C60_single_refuted (X uniform on [0,1]: the question X <= 1/4 or X >= 3/4 is answered, but raises after 1/4 <= X <= 3/4 is observed). With several sampled variables the observations can also be conjunctions of comparisons of one-to-one functions of continuous variables, mixed with the former, and the later questions any combination that C58 allows (C60_functions_partial, C60_function_answers_partial). Missing: other functions and derived variables in observations. Expressions are as the constructors leave them (tidy, CondShape.v: no sum directly below a sum, discrete leaves compared with integers)."
  },
  {
   "property": "C61",
   "status": "partial",
   "theorems": [
    "C61_complement_refuted",
    "C61_mixed_refuted",
    "C61_question_refuted",
    "C61_intersection",
    "C61_union",
    "C61_complement_partial",
    "C61_answers_partial",
    "C61_conditions_partial",
    "C61_programs_partial",
    "C61_function_answers_partial",
    "C61_function_conditions_partial",
    "C61_function_programs_partial",
    "C61_information_partial",
    "C61_function_information_partial"
   ],
   "note": "Intersections of which one operand has numbers only (C61_intersection), unions of sets of numbers (C61_union), complements of sets that are no unions and of unions whose parts contain their finite ends (C61_complement_partial). The code violates the rest: ~((0,1) | (1,2) | (2,3)) returns when the middle interval is visited last and raises AssertionError when they are visited from left to right (C61_complement_refuted); an intersection of two unions with strings and numbers returns or raises IndexError (C61_mixed_refuted). It reaches questions about distributions: for X uniform on [0,1] and the polynomial P = t (t-1)**2 (t-2)**2 (t-3) of t = 4 X - 1/2, logprob(P >= 0) returns the logarithm of 1/4 or raises AssertionError (C61_question_refuted, with an oracle for SymPy that answers about P exactly). Comparisons of variables and their combinations are answered in every order (C61_answers_partial), and those of positive probability can be observed in every order (C61_conditions_partial), under the conditions of C54_answers_partial and C25_positive_partial. Programs of the class of C55 run in every order, and questions about the variables they sample are answered alike (C61_programs_partial). Questions that compare chains of functions of variables, with linear and quadratic polynomials, are answered alike (C61_function_answers_partial), conjunctions of comparisons of one-to-one functions are observed alike (C61_function_conditions_partial), and the programs of C55_functions_partial run and answer alike (C61_function_programs_partial), under the conditions of C58 and C55. Missing: questions with polynomials of higher degree, for which the refutation holds. C61_information_partial, C61_function_information_partial: mutual_information returns the same number in two processes, for combinations of comparisons of variables and for thresholds of functions of two variables (PropOrderMI.v)."
  },
  {
   "property": "C62",
   "status": "proved",
   "theorems": [
    "C62_same_answer",
    "C62_same_law",
    "C62_same_information",
    "C62_same_program"
   ],
   "note": "Every pair of iteration orders of frozensets and of sets of strings, of oracles for SymPy within the contract, of node addresses without collisions, of hashes, and of bounds on the rounds. C62_same_answer is about logprob and C62_same_law about condition, C62_same_information about mutual_information, and C62_same_program about the expressions that programs compile to, with and without simplification, each for calls that return. Whether they return in both is C61."
  }
 ]
}