# Formal model of SPPL (probcomp/sppl) in Rocq

## What is modelled, and how

The model is a function-by-function transcription of the Python sources into
Gallina.  Every definition carries a comment with the file and lines it models.

* **Exceptions** are values: `res A = Ok a | Raise e` (`Base.v`).  An `assert`
  that fails is `Raise AssertionError`, etc.
* **Numbers.**  Python mixes ints, floats and exact SymPy numbers.  The model is
  parametric in a *number system* (`Num.v`): a type `num` with exact arithmetic, a
  decidable order and an embedding `toR` into the real numbers.  Two instances are
  provided: rationals (`Qnum`, executable, used by the examples) and the reals
  (`Rnum`, all functions total).  Operations that need not be exact in a given
  system (powers, logarithms) may decline (`None`), which the model turns into an
  exception.  *Floating-point rounding is not modelled*: arithmetic is exact.
* **Extended numbers** `ext A = NInf | Fin a | PInf` model +/-inf.
* **Frozenset iteration order** is unspecified in Python.  It is a parameter of the
  model (`iterorder`), an arbitrary permutation; theorems quantify over it.
* **Fuel.**  Loops whose termination is not structural take fuel and return
  `Raise OutOfFuel`; theorems speak about calls that return `Ok`.
* **Log probabilities** live in a *log system* (`Logs.v`) with `toP`, the
  probability denoted.  Instances: exact log-space reals with -inf
  (the functions of math_util.py on R), and rational probabilities (executable).
* **External libraries** (SymPy's solver and range computation, SciPy's cdf/pdf/pmf,
  the random source, Python's `hash`) are parameters with a stated contract.

## Specifications

Specifications are separate from the model:

* `mem v S`: membership of an extended real or string in a set.
* `teval`: the mathematical value of a transform at an assignment of finite reals and
  strings to variables; `None` where it is undefined (log of a negative number, a number
  compared with strings).  `holds`/`fails`: truth and falsity of an event.
* `good`: the transforms claimed to be handled (well-formed sets, bases above 1, ...);
  `regular`: the assignments away from the singular points where the solver, which computes
  with infinite values, adds solutions.
* Probability: expectation functionals.  A leaf is given by a positive linear normalized
  functional on functions of its value; a sum is the mixture, a product the composition of
  independent functionals.  The probability of an event is the expectation of its indicator.

## Plan per property

| property | modelled | proof |
|---|---|---|
| C01-C09 sets | all of sets.py except printing and `convert_sympy` | case analysis over endpoints, induction over pieces; refutations for the crash and +/-inf cases; for C05 an exact condition for which intersections with unions, and which complements of unions of closed parts, are returned |
| C10-C12 transforms | transforms.py 40-790, poly.py | induction on the transform; SymPy's solver is an oracle with contract "returns the exact solution set" |
| C13-C15 events | transforms.py 794-1242 | induction on events, Boolean semantics |
| C16-C18 DNF | dnf.py | induction on clauses and on fuel |
| C19 substitution | transforms.py 54-61 and subs | induction on expression and on the substitution order |
| C20 log arithmetic | math_util.py | real analysis (exp/ln) |
| C21-C25 logprob, condition | spe.py 65-690, leaves | induction on the expression, inclusion-exclusion over a finitely additive measure |
| C26-C29 constructors, simplification | spe.py 203-435, 359-416, 1045-1058 | mixtures/products algebra; hash is a parameter, refutation for colliding hashes |
| C30 memo | spe.py 49-60, 142-147 | invariant on the table over all histories |
| C31-C32 transform, scope | spe.py | induction |
| C33-C35 commands | ast_to_spe.py | induction on branch lists; law of total probability |
| C36-C37 logpdf/constrain | spe.py | induction |
| C38 mutual information | spe.py 87-103 | log-sum inequality; totality on comparisons (PropMITotal.v) and on thresholds of functions of two variables (PropMIFun.v); with the caller's memo table in MIMemo.v |
| C39-C40 serialisation/rendering | spe_to_dict.py, spe_to_sppl.py at the level of syntax trees, not of text | induction; that the written program runs follows from C55 (RenderRuns.v) |
| C41 sampling | sample functions with the random source as an oracle | induction; refutation of independence |
| C42-C43, C47 translator | sppl_to_python.py: the visitor, unrolling, rewriting, naming, at the level of syntax trees | induction on statements, with the scope of random names as invariant |
| C44 numeric solver | poly.py 57-142 given exact roots | sign analysis between roots; refutations |
| C48-C49 distributions | distributions.py | cases over the classes; induction over components |
| C50 evaluation | transforms.py evaluate/ffwd | induction on the transform; the truth of the event is `teval` of TransSpec.v |
| C51 accepted programs | sppl_to_python.py: the visitor | the visitor agrees with an inductive judgement (GramSpec.v): induction on the fuel |
| C52 hashes | __eq__ and __hash__ of transforms.py, spe.py | induction; hash of numbers, strings, tuples is any function that respects == (`objhash`) |
| C53 preprocess | SPPL_Compiler.preprocess of sppl_to_python.py | induction over the lines; a backtracking matcher for the patterns the code uses (greedy repetitions of a class of characters), soundness and longest-match lemmas |
| C54 answers | spe.py logprob, dnf.py, transforms.py solve, sets.py | every step of the solver succeeds on comparisons (TotalSpec.v); inclusion-exclusion stays nonnegative by the soundness of C21-C24; induction on the expression |
| C25 returns | spe.py condition, condition_mem, dnf.py dnf_to_disjoint_union, spe_simplify.py | every step of conditioning succeeds on comparisons (CondTotal.v); a union lists a number one by one only if it is isolated (TightUnion.v), and in a mixture of continuous leaves the clauses that are kept have no isolated numbers (Diffuse.v); the disjoint union ends because each round removes a cell of the grid of the numbers named (TotalUnion.v, TotalGrid.v); factoring the products out of a sum succeeds (SimplifyTotal.v) |
| C36-C37 return | spe.py logpdf_mem, constrain_mem | every step succeeds on assignments that can be asked about (DensTotal.v); conversely an answer shows that the assignment is one of them |
| C33-C34 return | ast_to_spe.py IfElse, Switch, interpret_if_block | the events of the branches can be made (BranchTotal.v; SwitchTotal.v: an interval or a number less an interval or a number leaves at most one piece), probability and conditioning answer as in C54 and C25, the weights of the kept branches sum to one (ReturnProofs.v) |
| C55 programs compile | ast_to_spe.py interpret, spe.py condition, SumSPE, ProductSPE, spe_simplify.py | induction on an inductive class of programs (CompileSpec.v); invariant on the shape of the expression: sums are flat, products only with two or more sampled variables, derived variables apart from sampled ones; conditioning, mixing and simplifying (CondShape.v) and transforming (TransformShape.v, TransformTotal.v) keep it, and C54, C25 and C33-C34 then apply to every step (CompileProofs.v); Conditions on one-to-one functions by C58 (CompileFunSpec.v, PropCompileFun.v) |
| C56 solving returns | transforms.py solve, invert, sets.py, poly.py | induction on a chain of functions (SolveSpec.v), with the kind of set that is asked of each function (a number, an interval, several numbers, any set) as invariant; SymPy's solutions of linear and quadratic polynomials are hypotheses (`linear`, `parabola`), which QuadEx.v meets for all coefficients; conjunctions of one-to-one comparisons are solved by an interval or by numbers, disjunctions by unions of solutions (PropSolveAnd.v, SolveAndSpec.v, SolveAndEx.v) |
| C57 derived variables | spe.py logprob, LeafSPE.subs, transforms.py substitute, solve | a comparison of a derived variable becomes, after as many substitutions as the leaf has definitions, a comparison of a chain of functions of the base variable (AskSpec.v `through`); C56 solves it, one-to-one functions give an interval or a set of numbers (NarrowTotal.v), and the induction of C54 is repeated (TotalAsk.v) |
| C58 functions in events | spe.py logprob, dnf.py dnf_normalize, dnf_factor, transforms.py solve | the normal form of an event that compares functions of variables consists of comparisons of variables (FunTotal.v `posed_normalize`): the clauses of the normal form mention a variable compared through a function once, so grouping merges comparisons of variables only, or compare it through one-to-one functions only, and then the conjunction is solved by an interval or by numbers (`solve_joined`); C56 solves each literal, by sets without infinite numbers (SolveSpec.v `calm`); from there on as C57. Conditions: the normal form of a conjunction with one-to-one functions is one clause (`posed_one`); from there on as C25 |
| C59 polynomials at infinity | poly.py solve_poly_inequality_inf, solve_poly_equality_inf; transforms.py Poly.ffwd, range, finv | the limit of a polynomial, from its definition, by induction on the coefficients: c + x q(x) tends to an infinite value when q does (PropPolyInf.v `poly_limit`) |
| C60 sessions | spe.py condition, logprob in sequence | induction on the list of observations; conditional distributions compose; conditioning keeps the shape that the totality theorems need; observations through one-to-one functions by C58 (PropSessionFun.v, SessionFunEx.v) |
| C61 returning and order | Union.__and__, __or__, __invert__ over an arbitrary iteration order (Sets.v `iterorder`) | corollary of the exact conditions of C05, which do not mention the order; refuted for complements of unions of open intervals and for intersections of unions that both have strings, and for a question about a polynomial of a uniform variable; questions and observations about comparisons return in every order, and those about functions in the class of C58 (PropOrderFun.v); so does mutual information (PropOrderMI.v) |
| C62 same answers | spe.py logprob and condition over two iteration orders, SymPy oracles, address assignments and hashes | both answers equal the one specified probability, both results are conditional distributions of the same event, which are unique |
| C45-C46 discrete leaves | spe.py 884-926, sym_util.py 54-65 | floor arithmetic; induction |

## The expression layer

* `Spe.v` models the expressions, `logprob`, `condition`, the constructors and the
  simplifications; the memo table is threaded through every call as explicit state.
* Python keys the table by `id(self)`.  The model uses a function `ident` of the expression
  value: structurally equal expressions share entries, which is coarser than Python, and the
  theorems require only that `ident` separates the subexpressions in play.
* A distribution (`distsys`) is a name with `logcdf`, `logpmf`, `support` ...; its contract
  `dist_ok` says these are the cdf, masses and support of some law.  `Instances.v` meets the
  contract with finite rational laws and with the uniform law on [0,1].  `Uniform.v` builds
  the latter as a positive linear functional on *all* functions, by a limit along an
  ultrafilter; this is where the axioms of indefinite description and propositional
  extensionality enter, and only examples depend on them.
* `SpeOps.v` models `transform`, `&`, `|`, mixtures, `prob`, `logpdf`, `constrain`,
  `mutual_information`.
* `DensSpec.v` gives densities their meaning: `density s a` is a pair (dimension, density)
  defined by recursion on the expression and independent of the code; `C36_limit` and
  `C37_limit` tie it to the measure: the limit of the probability of a shrinking box around
  the assigned values divided by its volume, for points at which every density used is
  continuous.  The densities reported by scipy are an oracle (`dpdf`); that they are the
  derivatives of the reported cdf near the point is a hypothesis of the limit theorems only.
* `Prog.v` models the commands and the interpreter of `ast_to_spe.py`.  `ProgSpec.v` gives
  their meaning as operations on kernels (expected values), with the law of total probability
  for branches; `fits` says which programs are claimed to work.  `Same.v` gives the examples an
  `ident` that separates the parts of any expression.
* `MISpec.v` states what mutual information is (over the four cells of two events), with exact
  real logarithms.  `PropLeaf.v` and `LeafEx.v` are about integer-valued leaves: intervals
  (C45) and runs of consecutive integers (C46).
* `Source.v` models `sppl_to_python.py` on syntax trees: the visitor and its state (imports,
  constants, variables, arrays, context), the rewriting of comparisons, the tree of commands
  that is written out, and Python's evaluation (`peval`) of the written expressions to
  transforms, events, numbers, collections.  Parsing, printing and indentation are not
  modelled.  Oracles: `call` (calls inside expressions), `deval` (calls of distributions),
  `aeval` (the dictionary of `constrain`), `unparse` (the text of a constant statement, used as
  a key by the code), `isdist` (the names of distributions).
* `SourceSpec.v` says what a source program means, statement by statement, on the values of the
  variables (`seval`) and on kernels (`smean`), without the translation.  `cond`, `term`,
  `sane` and `solid` delimit the programs claimed: no `constrain`, no chained comparisons, no
  `and`/`or`/`not`, no number minus a variable, no branch that is only `pass`.  The `_refuted`
  theorems in `SourceEx.v` show that each of these limits except the first is needed.  `able`
  (`SourceKernel.v`) is the part of `fits` that the translation proof needs.
* `Dict.v` models `spe_to_dict.py`: the texts that `repr` gives are syntax trees, `eval` calls the
  modelled constructors.  Oracles: `reparse` (eval(repr(c)) of a number), `redist` (building a scipy
  distribution from its name and arguments), `tofloat`.  `DictSpec.v` says which expressions are
  claimed to survive: those the constructors make, with numbers that `reparse` keeps.
* `Sample.v` models sampling: a sampler is a tree of requests to the random source (numpy's
  `choice`, `shuffle`, `uniform`; scipy's `rvs`, `ppf`).  `SampleSpec.v` reads such a tree in two
  ways: the possible results (`outcome`) and the expected value of a function of the result
  (`expect`).  Floats are exact: samples are real numbers.  `settled` leaves out logarithms and
  piecewise functions as derived variables, for which `SampleEx.v` has refutations.  For
  conditioned leaves expected values are claimed for step functions (`fair`), since laws are
  finitely additive and a uniform law is pinned down by its cdf.
* `Render.v` models `spe_to_sppl.py` and the `__str__` methods it uses.  Texts are the trees that
  Python parses them to: a `piece` keeps track of operators that are not in brackets yet, so that
  missing brackets show (`1/1 + X`).  Oracles: the name and keyword arguments of a SciPy
  distribution, `math.exp`, the text of a number, the comparison with `sympy.E`.  `RenderSpec.v`
  says which expressions are claimed to survive (`renderable`): no atoms, no elements of arrays,
  derived variables whose definition is read back as the same function (`shows`).  `RenderShow.v`
  gives a class of definitions for which that holds (`printable`); `RenderEx.v` has refutations
  outside it.  `coded` (`RenderCode.v`) relates an expression to the commands of its program.
* `Dists.v` models `distributions.py`: the domain of every class of the catalogue, the discrete
  constructors and mixtures.  `DistsSpec.v` writes down, from SciPy's documentation, the support of
  each distribution in standard form and what `loc` and `scale` do to it.  `wrong`, `unmoved` and
  `loose` name the classes whose domain is wrong, ignores `loc` and `scale`, or is too large;
  `DistsEx.v` refutes the claim for each class in the first two.  Oracles: the SciPy object
  (`documented`), `rv_discrete` (`rv_contract`), pi.  A discrete distribution may have an unbounded
  domain if its law is on positive numbers (`disc_supp`).
* Laws are finitely additive: a law is a positive, linear, normalized functional on
  bounded functions.  Countable additivity is never used.

## Not modelled

Floating-point rounding and tolerances (`allclose` is only required to accept equal
numbers), time-outs and threads (timeout.py), graph rendering (render.py), IPython
magics, parsing and printing of text, the cdfs and densities that SciPy computes (a leaf is
given by its cdf/pdf/pmf; only the domains of the catalogue are modelled), performance.

## Trusted base

Coq 8.16.1's kernel, the axioms that `Print Assumptions` lists beside each theorem (see
the Prop*.v files), and the reading of the Python sources embodied in the definitions.
The axioms listed are those of the standard library's real numbers and classical logic:
`ClassicalDedekindReals.sig_not_dec`, `ClassicalDedekindReals.sig_forall_dec`,
`FunctionalExtensionality.functional_extensionality_dep`, `Classical_Prop.classic`.
The examples about the uniform distribution also use
`ClassicalEpsilon.constructive_indefinite_description` and
`PropExtensionality.propositional_extensionality`.
