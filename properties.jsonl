{"id": "C01", "title": "Splitting on a delimiter set loses nothing", "statement": "split(s, delims, true) returns non-empty tokens whose concatenation is exactly s, every token being either a single delimiter or free of delimiters; split(s, delims, false) returns the same sequence with the delimiter tokens removed.", "quantifier": "every string and every delimiter set", "why_tests_cant": "the input space is all strings; loss can hide at any position (leading, trailing, adjacent delimiters)", "anchors": ["src/Utilities.cpp: split(std::string, std::vector<char>, bool)"]}
{"id": "C02", "title": "Splitting on one character is a left inverse of joining", "statement": "For any list of non-blank tokens that do not contain the delimiter, joining them with the delimiter and calling split(s, delim) gives the list back; no returned token ever contains the delimiter, and with white-space suppression no returned token is blank.", "quantifier": "every token list and every delimiter character", "why_tests_cant": "quantifies over all token lists", "anchors": ["src/Utilities.cpp: split(const std::string&, char, bool)"]}
{"id": "C03", "title": "replaceAll substitutes every occurrence and terminates", "statement": "replaceAll(s, old, new) terminates for non-empty old and returns s with every left-to-right non-overlapping occurrence of old replaced by new.", "quantifier": "every triple of strings with old non-empty", "why_tests_cant": "failure depends on relative lengths and on where occurrences abut; non-termination cannot be shown by a finite test", "anchors": ["src/Utilities.cpp: replaceAll"]}
{"id": "C04", "title": "Wildcard matching follows glob semantics", "statement": "stringMatchesWildcard(s, pattern) is true exactly when s can be obtained from pattern by replacing each '*' by some (possibly empty) string.", "quantifier": "every string and every pattern", "why_tests_cant": "both over-acceptance and over-rejection occur only for particular overlaps of the literal pieces", "anchors": ["src/Utilities.cpp: stringMatchesWildcard"]}
{"id": "C05", "title": "Edit distance is the Levenshtein distance", "statement": "editDistance(a, b), which chooses the suggestion printed for an unknown particle name, equals the least number of single-character insertions, deletions and substitutions that turn a into b.", "quantifier": "every pair of strings", "why_tests_cant": "minimality is a statement about all edit scripts", "anchors": ["src/Utilities.cpp: editDistance", "src/ParticlePropertiesList.cpp: find"]}
{"id": "C06", "title": "Permutation parity of identical-particle exchange", "statement": "minSwaps(indices, exchangeParities) returns the minimal number of exchanges that sorts the permutation, and a sign which is the product of the exchange parities of the particles over these exchanges (for fermions only: the sign of the permutation).", "quantifier": "every permutation and every assignment of exchange parities", "why_tests_cant": "needs all permutations of all sizes; the smallest wrong case needs three identical fermions", "anchors": ["src/Utilities.cpp: minSwaps", "src/Particle.cpp: getExpression"]}
{"id": "C07", "title": "Trimming removes exactly the surrounding white space", "statement": "trim(s) is the longest substring of s which neither starts nor ends with white space, and trimming is idempotent.", "quantifier": "every string", "why_tests_cant": "all strings", "anchors": ["src/Utilities.cpp: trim, ltrim, rtrim"]}
{"id": "C08", "title": "Expression keys identify expressions", "statement": "Two sub-expressions receive the same common-sub-expression key only if their source text is the same, so that de-duplication never merges different expressions.", "quantifier": "every pair of expressions", "why_tests_cant": "a collision is a needle in a 2^32 haystack; tests use a handful of expressions", "anchors": ["src/Utilities.cpp: FNV1a_hash", "src/Expression.cpp: SubTree::key, make_cse", "src/ASTResolver.cpp: getOrderedSubExpressions"]}
{"id": "C09", "title": "Options lines tokenise as written", "statement": "A line made of blank-separated words (quoted words keep their blanks, braces keep their content together, text after '#' is ignored) is read as exactly that sequence of words; reading never reorders, merges or invents words.", "quantifier": "every line", "why_tests_cant": "all combinations of quoting, comments, braces and blanks", "anchors": ["src/OptionsParser.cpp: makeParsedStrings"]}
{"id": "C10", "title": "The last definition of an option wins and is seen once", "statement": "After any sequence of definitions, looking up an option gives the last line defining it, and the ordered list of inputs contains each option exactly once.", "quantifier": "every sequence of option lines", "why_tests_cant": "history dependent: needs every interleaving of repeated keys", "anchors": ["src/OptionsParser.cpp: addArg, getInputOrdered, find"]}
{"id": "C11", "title": "Multi-line options blocks are accumulated completely", "statement": "Reading an options file, each logical line (physical lines joined until braces balance) is delivered exactly once and in order, and no non-comment text of the file is silently dropped.", "quantifier": "every options file", "why_tests_cant": "dropped text occurs only for unbalanced files, anywhere in the file", "anchors": ["src/OptionsParser.cpp: import, ignoreThisLine"]}
{"id": "C12", "title": "Parameter sets index parameters consistently", "statement": "After any sequence of additions, renamings and removals, access by position and access by name agree: every stored parameter is found under its own name, every name finds a stored parameter of that name, and names are unique.", "quantifier": "every history of operations", "why_tests_cant": "an invariant over all histories; breaks only for particular sequences (duplicate add, remove)", "anchors": ["src/MinuitParameterSet.cpp: addToEnd, unregister, rename, find, addOrGet"]}
{"id": "C13", "title": "Minimiser values reach exactly the floating parameters", "statement": "Setting the parameter set from a minimiser state changes exactly the parameters in the mapping, the i-th mapped parameter receiving the i-th value; every other parameter keeps its value, and the full covariance matrix holds the minimiser's entry for each pair of floating parameters and zero elsewhere.", "quantifier": "every parameter set, every choice of floating parameters and every state vector", "why_tests_cant": "all parameter sets and subsets", "anchors": ["src/MinuitParameterSet.cpp: setFromMinuit, setMapping", "src/Minimiser.cpp: prepare, operator(), covMatrixFull"]}
{"id": "C14", "title": "Parameter lines are read as declared", "statement": "A parameter line with 4, 6, 7 or 11 words defines the declared parameter(s) with the declared flag, value, step and limits, and any other line, or a line with an unreadable number or unknown flag, defines no parameter.", "quantifier": "every tokenised line", "why_tests_cant": "all token counts and token contents", "anchors": ["src/MinuitParameterSet.cpp: tryParameter", "AmpGen/enum.h: parse"]}
{"id": "C15", "title": "Enumerations round-trip through text", "statement": "For every enumeration declared with make_enum/complete_enum, parsing the printed name of an enumerator gives that enumerator, and any word that is not the name of an enumerator parses as Invalid.", "quantifier": "every enumerator list, every enumerator and every word", "why_tests_cant": "all words, including numbers and the empty word", "anchors": ["AmpGen/enum.h: detail::parse, detail::to_string"]}
{"id": "C16", "title": "A parameter constructed from a value holds that value", "statement": "MinuitParameter(name, mean, step, min, max) has the given mean, step and limits and is free.", "quantifier": "every argument tuple", "why_tests_cant": "reads of indeterminate values behave differently on each run and compiler", "anchors": ["src/MinuitParameter.cpp: MinuitParameter(name, mean, step, min, max)"]}
{"id": "C17", "title": "Blinded values do not leak through fit output", "statement": "Text produced for a blinded parameter depends on the parameter value and its secret offset only through their sum.", "quantifier": "every value and every offset", "why_tests_cant": "a non-interference property over pairs of runs", "anchors": ["src/FitResult.cpp: writeToFile, writeOptions", "src/MinuitParameter.cpp: operator<<", "src/Minimiser.cpp: doFit"]}
{"id": "C18", "title": "Fit results survive writing and reading", "statement": "Reading back a file written by a fit result gives the same parameters (flag, value, errors, limits) and associates each parameter pair with the same covariance.", "quantifier": "every parameter set and covariance matrix", "why_tests_cant": "depends on which parameters are hidden and on the number of columns", "anchors": ["src/FitResult.cpp: writeToFile, readFile"]}
{"id": "C19", "title": "Algebraic constructors preserve the value of expressions", "statement": "The expression built by +, -, *, / and unary minus, pow, fpow, sqrt, conj etc. evaluates to the corresponding operation on the values of the operands, whatever constant folding takes place.", "quantifier": "every pair of expression trees and every parameter assignment", "why_tests_cant": "all trees; folding rules trigger only on particular shapes", "anchors": ["src/Expression.cpp: operator+, operator-, operator*, operator/, simplify_constant_addition, simplify_product_addition, simplify_multiplication"]}
{"id": "C20", "title": "Generated source text means what the expression means", "statement": "The C++ text printed for an expression tree, read with the C++ precedence and associativity rules, denotes the same tree value that in-memory evaluation gives.", "quantifier": "every expression tree", "why_tests_cant": "bracketing errors need particular nestings; all nestings must be right", "anchors": ["src/BinaryExpression.cpp: to_string", "src/UnaryExpression.cpp: to_string"]}
{"id": "C21", "title": "Typed expressions parse with the documented precedence", "statement": "ExpressionParser gives a text expression of numbers, names, binary operators and parentheses the value required by operator precedence (^ before / before * before - before + before comparisons before &&, left to right).", "quantifier": "every well-formed expression text", "why_tests_cant": "all expression texts, nested to any depth", "anchors": ["src/ExpressionParser.cpp: parseTokens, processBinaryOperators, findMatchingBracket"]}
{"id": "C22", "title": "Normal ordering preserves the value", "statement": "Simplify(e) evaluates to the same value as e.", "quantifier": "every expression and every parameter assignment", "why_tests_cant": "all trees; wrong only when a factor of an unlisted kind occurs", "anchors": ["src/Simplify.cpp: Term, NormalOrderedExpression, Simplify"]}
{"id": "C23", "title": "Common sub-expressions are defined before use, once, and completely", "statement": "The list of sub-expressions emitted before the body of a compiled function contains each distinct sub-expression reachable from the body exactly once and each after all those it depends on.", "quantifier": "every acyclic expression with shared sub-expressions, assuming distinct keys", "why_tests_cant": "all DAG shapes", "anchors": ["src/ASTResolver.cpp: getOrderedSubExpressions"]}
{"id": "C24", "title": "Cached parameters and functions occupy disjoint storage", "statement": "Whatever sequence of parameters and cached functions is registered, each name has one address range, ranges of different names are disjoint, and the total size covers them all.", "quantifier": "every registration sequence", "why_tests_cant": "all histories", "anchors": ["AmpGen/ASTResolver.h: addCacheFunction", "src/ASTResolver.cpp: resolve<Parameter>"]}
{"id": "C25", "title": "Derivatives of unary functions are the mathematical derivatives", "statement": "For each unary function expression, the derivative expression d() evaluates to the derivative of the function at the argument.", "quantifier": "every unary function and every argument in the interior of its domain", "why_tests_cant": "a statement about real functions at every point", "anchors": ["src/UnaryExpression.cpp: d()"]}
{"id": "C26", "title": "Tensor indexing is a bijection", "statement": "For any dimensions, index_to_coordinates and coordinates_to_index are mutually inverse between 0..size-1 and the in-range coordinate tuples.", "quantifier": "every dimension list and every index", "why_tests_cant": "all ranks and dimensions", "anchors": ["src/Tensor.cpp: index_to_coordinates, coordinates_to_index"]}
{"id": "C27", "title": "Indexed tensor products follow the summation convention", "statement": "The product of two indexed tensors has, for each value of the free indices, the sum over repeated indices of the products of components, with the Minkowski metric sign applied to each contracted index.", "quantifier": "every pair of tensors with any index assignment", "why_tests_cant": "all ranks, dimensions and index coincidences", "anchors": ["src/Tensor.cpp: operator*(TensorProxy, TensorProxy), metricSgn"]}
{"id": "C28", "title": "The Levi-Civita tensor is totally antisymmetric", "statement": "LeviCivita(n) has component 0 when two coordinates coincide and otherwise the sign of the permutation, so exchanging two coordinates flips the sign.", "quantifier": "every rank and every coordinate tuple", "why_tests_cant": "all ranks", "anchors": ["src/Tensor.cpp: LeviCivita"]}
{"id": "C29", "title": "Matrix inversion inverts", "statement": "Invert() of a square matrix for which the algorithm meets no zero pivot gives the two-sided inverse.", "quantifier": "every size and every such matrix", "why_tests_cant": "all sizes and entries", "anchors": ["src/Tensor.cpp: Invert"]}
{"id": "C30", "title": "Stored values are independent cells", "statement": "In either memory layout, writing the value of one (event, field) changes that value only, and every (event, field) in range addresses storage inside the allocation.", "quantifier": "every number of events, fields and every write sequence", "why_tests_cant": "all sizes and histories", "anchors": ["AmpGen/Store.h: Store::operator(), store, resize, addFunctor"]}
{"id": "C31", "title": "Each cached function owns its fields", "statement": "Registering functions in any order gives each name a contiguous block of fields, blocks of different names do not overlap, registering again changes nothing, and the blocks fill exactly the fields allocated.", "quantifier": "every registration sequence", "why_tests_cant": "all histories", "anchors": ["AmpGen/Store.h: addFunctor, allocate, FunctionCache"]}
{"id": "C32", "title": "Cached amplitudes are never stale", "statement": "After prepare(), the stored amplitude of every matrix element for every event, and every normalisation integral, equals what recomputing everything from scratch with the current parameter values would give.", "quantifier": "every history of parameter changes, prepare() calls, resets and changes of data set", "why_tests_cant": "history dependent caching; staleness shows only for specific change patterns", "anchors": ["src/CoherentSum.cpp: prepare, updateNorms, reset", "AmpGen/CompiledExpression.h: setExternal, hasExternalsChanged"]}
{"id": "C33", "title": "The normalisation is the average of the probability density", "statement": "norm() equals the weighted average over the integration sample of |sum_i g_i A_i|^2; it is real and non-negative for non-negative weights.", "quantifier": "every number of amplitudes, couplings, sample and weights", "why_tests_cant": "an algebraic identity in all sizes", "anchors": ["src/CoherentSum.cpp: norm, getNorm", "src/Integrator.cpp: integrateBlock"]}
{"id": "C34", "title": "Queued integrals are each computed exactly once", "statement": "After any number of queued integrals followed by a flush, every requested normalisation entry holds its integral, whatever the batch size.", "quantifier": "every sequence of requests", "why_tests_cant": "boundary effects at multiples of the batch size", "anchors": ["src/Integrator.cpp: queueIntegral, flush", "AmpGen/Integrator.h"]}
{"id": "C35", "title": "Fit fractions and interference fractions sum to one", "statement": "With all amplitudes in the normalisation set, the sum of the fit fractions and of the (twice real) interference fractions is one.", "quantifier": "every number of amplitudes, couplings and norms with non-zero total", "why_tests_cant": "algebraic identity in all sizes", "anchors": ["AmpGen/FitFraction.h: FitFractionCalculator"]}
{"id": "C36", "title": "Thread-pool tasks run exactly once", "statement": "Under every interleaving of workers and callers, each enqueued task is executed exactly once and all tasks enqueued before the pool is shut down have been executed when the shutdown returns; tasks start in the order enqueued.", "quantifier": "every number of workers, every schedule", "why_tests_cant": "schedules", "anchors": ["src/ThreadPool.cpp", "AmpGen/ThreadPool.h: enqueue"]}
{"id": "C37", "title": "Adaptive binning partitions the phase space", "statement": "A binning tree assigns every point exactly one bin; bins are numbered 0..n-1; every bin of a tree built from a sample contains exactly the sample events that were assigned to it when the tree was built, so at least the requested minimum.", "quantifier": "every sample and every minimum count", "why_tests_cant": "ties and odd/even sizes at any depth", "anchors": ["src/BinDT.cpp: makeNodes, splitEvents, Decision::operator()"]}
{"id": "C38", "title": "Binnings survive serialisation", "statement": "Writing a binning to a stream and reading it back gives a binning that assigns every point the same bin.", "quantifier": "every tree and every point", "why_tests_cant": "all tree shapes", "anchors": ["src/BinDT.cpp: serialize, readFromStream"]}
{"id": "C39", "title": "Flat decision trees agree with their training partition", "statement": "Looking up any training event in a fast decision tree returns the leaf the event was put in during training; lookup always terminates inside the node array.", "quantifier": "every sample", "why_tests_cant": "depends on coincidences between cut values and events", "anchors": ["src/FastDT.cpp: findNode, makeNodes"]}
{"id": "C40", "title": "The integral of an event list is the sum of weights", "statement": "EventList::integral() equals the sum of the event weights.", "quantifier": "every list of weights", "why_tests_cant": "rounding to integers shows only with fractional weights", "anchors": ["src/EventList.cpp: integral"]}
{"id": "C41", "title": "Events know their position", "statement": "After any sequence of insertions, appends, resizes, removals and filters, the index stored in the i-th event of a list is i, so caches addressed by event index refer to that event.", "quantifier": "every history", "why_tests_cant": "history dependent", "anchors": ["src/EventList.cpp: push_back, add, resize, erase", "AmpGen/EventList.h: filter"]}
{"id": "C42", "title": "Event branches map to distinct slots", "statement": "The event format gives each momentum component, the decay time and each extension a distinct slot, and all slots lie inside the event.", "quantifier": "every event type (any number of particles, time dependence, energy option, extensions)", "why_tests_cant": "all combinations", "anchors": ["src/EventType.cpp: getEventFormat, eventSize"]}
{"id": "C43", "title": "Automatic ordering permutes events into the declared order", "statement": "Given the particle ids of an event, automaticOrdering puts each particle's momentum at the position of a particle of that species (or antispecies for the conjugate decay), losing none, or reports that the ids do not match.", "quantifier": "every declared and actual list of ids", "why_tests_cant": "fails only with repeated ids in unequal multiplicities", "anchors": ["src/EventType.cpp: automaticOrdering", "src/Event.cpp: reorder"]}
{"id": "C44", "title": "Reordering momenta preserves invariants", "statement": "Swapping particles twice restores the event; reordering by a permutation moves each four-momentum intact; invariant masses computed from a set of particles do not depend on the order of the set, and agree between the 1-, 2-, 3- and n-particle forms.", "quantifier": "every event, permutation and index set", "why_tests_cant": "all sizes and permutations", "anchors": ["src/Event.cpp: swap, reorder, s"]}
{"id": "C45", "title": "Generation yields the requested number of accepted events", "statement": "fillEventList appends exactly N events satisfying the accept condition, leaves earlier events untouched, and otherwise stops with an error.", "quantifier": "every random sequence, block size and N", "why_tests_cant": "all random streams", "anchors": ["AmpGen/Generator.h: fillEventList"]}
{"id": "C46", "title": "Phase-space events conserve four-momentum and are on shell", "statement": "Each generated event has total momentum zero and total energy equal to the mother mass, and each particle has its own mass.", "quantifier": "every number of particles, masses below threshold and random numbers", "why_tests_cant": "continuum of random numbers", "anchors": ["src/PhaseSpace.cpp: fill, setDecay"]}
{"id": "C47", "title": "Decay-chain phase space respects the chain kinematics", "statement": "Boosts in the decay-chain generator preserve invariant masses and the state filled from sampled invariant masses has exactly these invariant masses, and the acceptance ceiling is at least the maximum weight of every chain.", "quantifier": "every chain, invariant mass state and random direction", "why_tests_cant": "continuum of states", "anchors": ["AmpGen/DecayChainStack.h: boost, fill_from_state, Node::operator()", "src/TreePhaseSpace.cpp: initialise_weights"]}
{"id": "C48", "title": "Discrete sampling has the requested probabilities", "statement": "DiscreteDistribution(weights) returns index i for a set of uniform random numbers of total length weights[i]/sum(weights), for every number of weights.", "quantifier": "every weight vector with positive sum", "why_tests_cant": "measure of a set", "anchors": ["src/DiscreteDistribution.cpp: create_buckets", "AmpGen/DiscreteDistribution.h: operator()"]}
{"id": "C49", "title": "Compensated summation equals the sum in exact arithmetic and keeps the lost part", "statement": "Accumulating values in a KahanSum gives the exact sum whenever arithmetic is exact; in binary floating point what each addition loses is kept without error, so the running sum and the lost parts add up to the exact sum and the returned value obeys the corresponding error bound. Mixing operator+ (which keeps the correction with the opposite sign) with operator() does not have this property.", "quantifier": "every sequence of floating point numbers, every precision, every symmetric rounding to nearest", "why_tests_cant": "all rounding patterns", "anchors": ["AmpGen/KahanSum.h"]}
{"id": "C50", "title": "Quark content is additive and charge conjugation an involution", "statement": "The quark content of a product is the set of pairwise sums of the alternatives of the factors; charge conjugation is an involution and commutes with addition.", "quantifier": "every quark content", "why_tests_cant": "all alternatives", "anchors": ["src/QuarkContent.cpp"]}
{"id": "C51", "title": "Particle and antiparticle are mutual conjugates", "statement": "Taking the antiparticle of an antiparticle entry gives back the original entry, charge and PDG id change sign, and the ordering of particle properties is a strict weak order.", "quantifier": "every particle entry", "why_tests_cant": "all entries, including user-defined ones without a PDG id", "anchors": ["src/ParticleProperties.cpp: antiThis, operator<"]}
{"id": "C52", "title": "Printed spin denotes the spin", "statement": "ParticleProperties::J() prints the spin the particle has: reading the printed text as a fraction gives the stored spin.", "quantifier": "every spin", "why_tests_cant": "all half-integer spins", "anchors": ["src/ParticleProperties.cpp: J"]}
{"id": "C53", "title": "Daughter ordering is a strict weak order", "statement": "Sorting of decay daughters uses an ordering that is irreflexive, transitive and total on inequivalent particles, so decay descriptors are canonical.", "quantifier": "every triple of particles", "why_tests_cant": "three-element cycles", "anchors": ["src/Particle.cpp: operator<, operator>, sortDaughters"]}
{"id": "C54", "title": "Allowed spin-orbit couplings are the angular-momentum triangle", "statement": "spinOrbitCouplings lists exactly the (L,S) with |j1-j2|<=S<=j1+j2 and |L-S|<=J<=L+S, subject to parity when conservation is requested.", "quantifier": "every spin combination", "why_tests_cant": "all spins", "anchors": ["src/Particle.cpp: spinOrbitCouplings, orbitalRange"]}
{"id": "C55", "title": "Decay descriptors round-trip", "statement": "Parsing the decay descriptor printed for a decay tree gives the same tree; malformed descriptors (unbalanced braces) are rejected.", "quantifier": "every decay tree", "why_tests_cant": "nesting to any depth", "anchors": ["src/Utilities.cpp: getItems", "src/Particle.cpp: isValidDecayDescriptor, decayDescriptor"]}
{"id": "C56", "title": "Clebsch-Gordan coefficients obey the selection rules", "statement": "CG(j1,m1,j2,m2,J,M) is zero unless m1+m2=M, |m1|<=j1, |m2|<=j2, |M|<=J and |j1-j2|<=J<=j1+j2; coupling with spin 0 gives 1; exchange of the two spins multiplies by (-1)^(j1+j2-J).", "quantifier": "every integer and half-integer spin", "why_tests_cant": "all spins", "anchors": ["src/Wigner.cpp: CG"]}
{"id": "C57", "title": "Cascade rules combine each coupling exactly once per decay", "statement": "Expanding a decay with cascade rules yields each combination of rules for its decaying daughters once, with the product of the couplings of all the rules used.", "quantifier": "every rule set without recursion", "why_tests_cant": "identical daughters and names contained in one another", "anchors": ["src/AmplitudeRules.cpp: expand, getMatchingRules, TotalCoupling"]}
{"id": "C58", "title": "Generated symbol names are identifiers and distinct", "statement": "programatic_name(s) is a valid C identifier, is unchanged by a second application, and different amplitudes get different symbols.", "quantifier": "every string", "why_tests_cant": "all strings", "anchors": ["src/CompiledExpressionBase.cpp: programatic_name"]}
{"id": "C59", "title": "Linear error propagation is a quadratic form and restores parameters", "statement": "Merging propagators adds covariances parameter by parameter; computing errors leaves all parameter values as they were; combination weights sum to one.", "quantifier": "every set of parameters and covariances", "why_tests_cant": "all sizes and overlaps", "anchors": ["src/ErrorPropagator.cpp: LinearErrorPropagator::add, getVectorError, combinationWeights, reset"]}
{"id": "C60", "title": "swapChars is an involution", "statement": "swapChars(swapChars(s, a, b), a, b) is s: exchanging two characters throughout a name twice restores it, so charge conjugating a name twice by this helper is harmless.", "quantifier": "every string and every pair of characters", "why_tests_cant": "quantifies over all strings", "anchors": ["src/Utilities.cpp: swapChars"]}
{"id": "C61", "title": "Reading an options file terminates", "statement": "Importing an options file, including the files it imports in turn, finishes.", "quantifier": "every set of option files", "why_tests_cant": "circular imports of any length", "anchors": ["src/OptionsParser.cpp: import, addArg"]}
{"id": "C62", "title": "Redeclaring a parameter in the options overrides it", "statement": "After reading options in which a parameter is declared more than once (a file and then the command line, say), the set has one parameter of that name, as last declared.", "quantifier": "every sequence of declarations", "why_tests_cant": "all orders and repetitions across files and command line", "anchors": ["src/OptionsParser.cpp: addArg, getInputOrdered", "src/MinuitParameterSet.cpp: loadFromStream, addToEnd"]}
{"id": "C63", "title": "Options written after a fit reload the same parameters", "statement": "Reading the options written by FitResult::writeOptions gives parameters with the same names, flags, values, steps (the fitted errors) and limits.", "quantifier": "every parameter set", "why_tests_cant": "real and complex parameters with every combination of limits", "anchors": ["src/FitResult.cpp: writeOptions", "src/MinuitParameterSet.cpp: tryParameter"]}
{"id": "C64", "title": "Covariances are found under the parameters they belong to", "statement": "cov(x, y) by name is the minimiser's covariance of the floating parameters x and y and zero if one of them is fixed; the reduced covariance is ordered as the floating parameters.", "quantifier": "every parameter set and covariance", "why_tests_cant": "all positions of fixed among floating parameters", "anchors": ["src/FitResult.cpp: cov, floating, getReducedCovariance", "src/Minimiser.cpp: covMatrixFull"]}
{"id": "C65", "title": "Named parameters take the given values or the default", "statement": "A NamedParameter has the values on its option line when they can be read; without a line, or when a value cannot be read, it has its default.", "quantifier": "every option line and default", "why_tests_cant": "all types and malformed words", "anchors": ["AmpGen/NamedParameter.h: setFromOptionsParser"]}
{"id": "C66", "title": "Numbered options are all collected", "statement": "getVectorArgument(name, default) returns the values of name0, name1, ... up to the first one that is not given.", "quantifier": "every set of option lines and every default", "why_tests_cant": "depends on the relation of values, default and empty value", "anchors": ["AmpGen/NamedParameter.h: getVectorArgument"]}
{"id": "C67", "title": "Every expression text is read or rejected", "statement": "Reading any list of tokens returns, and a text that is not a well-formed expression (a sign without left operand, a missing operator, empty brackets, functions without brackets) is rejected or read with its mathematical meaning.", "quantifier": "every list of tokens", "why_tests_cant": "arbitrary malformed text", "anchors": ["src/ExpressionParser.cpp: parseTokens, processUnaryOperators, processBinaryOperators"]}
{"id": "C68", "title": "Symmetrising exchanges only identical particles, without bias", "statement": "The symmetriser of an event type only exchanges four-momenta of particles with the same name, changes nothing else in the event, and reaches every arrangement of each species by exactly one sequence of draws.", "quantifier": "every event type, event and random sequence", "why_tests_cant": "distribution over all permutations and all random streams", "anchors": ["src/EventType.cpp: symmetriser", "src/Event.cpp: swap"]}
{"id": "C69", "title": "Spin couplings are orthonormal", "statement": "The coefficients CG(j1,m1,j2,M-m1,J,M) of different total spins J are orthogonal and normalised for every M, and the helicity couplings of calculate_recoupling_constants for different (L,S) are orthogonal and normalised, so each (L,S) amplitude is independent of the others.", "quantifier": "every integer and half-integer spin, every L and S", "why_tests_cant": "unbounded spins; an identity between sums of factorials", "anchors": ["src/Wigner.cpp: CG, calculate_recoupling_constants"]}
{"id": "C70", "title": "wigner_d gives the matrix of a rotation", "statement": "For every spin j, projections m, n and angle between 0 and pi, the value of wigner_d(cos a, j, m, n) is the coefficient of the state n in the state m turned by a about the y axis; the functions are orthonormal in n, compose when angles are added, are the identity at angle zero, and vanish for projections the spin does not have.", "quantifier": "all spins, projections and angles", "why_tests_cant": "Tests compare a few spins and angles with tabulated functions; the sum over k, the half-integer exponents and the signs differ for every spin.", "anchors": ["src/Wigner.cpp:27-71", "src/Expression.cpp:322-327"]}
{"id": "C71", "title": "Splines are natural cubic splines", "statement": "With at least two knots, the value of a spline between the first and the last knot is that of the one natural cubic spline through the knots: it passes through every knot, is twice continuously differentiable and has no curvature at the ends; beyond the last knot it stays at the last value.", "quantifier": "all numbers of knots, knot values, ranges and arguments", "why_tests_cant": "Tests evaluate one spline at a few points; continuity at the knots, the treatment of the ends and the indexing of the curvatures are about every argument.", "anchors": ["src/Spline.cpp:63-83", "src/Spline.cpp:87-112", "src/Spline.cpp:126-151", "src/Array.cpp:20-31"]}
{"id": "C72", "title": "Boosts, turns and decay angles are what their names say", "statement": "boost moves every particle of an event along the given direction with the given velocity (and by -v moves it back); rotate turns all momenta about the axis by the angle, turns add up and keep handedness; neither changes any invariant mass; helicityCosine is the cosine of the angle between the two momenta in the rest frame of the reference and momentumTransfer the momentum of either side in their common rest frame; phi is the signed angle about the direction of the second pair that takes the normal of the first decay plane to that of the second, is unchanged when the event is turned, and acoplanarity is its absolute value; rotateBasis with orthogonal axes keeps lengths and angles", "quantifier": "for all events, index sets, axes other than zero, velocities below that of light and angles", "why_tests_cant": "sampled events agree to rounding with any formula of the same small-velocity limit or special axis; the claim is an identity over all momenta and frames", "anchors": ["src/Kinematics.cpp:14-31", "src/Kinematics.cpp:46-53", "src/Kinematics.cpp:60-117", "src/Kinematics.cpp:119-195"]}
{"id": "C73", "title": "Boosts and rotations act alike on momenta, spinors and bispinors", "statement": "A TransformSequence acts on a four-vector, spinor or bispinor as its transforms one after the other, however it was put together; its inverse undoes it; rotations turn momenta about their axis by the given angle and boosts move them with the given Lorentz factor; invariant products of momenta stay; the momentum a spinor carries is transformed as a momentum, the product of a momentum's gamma matrix with a bispinor as a bispinor, and the products of spinors and of bispinors stay; the transform of a decay product to its rest frame brings its momentum to rest.", "quantifier": "For all sequences, however built from transforms, joins, appends and inverses, all axes of length one, angles and Lorentz factors, and all momenta, spinors and bispinors.", "why_tests_cant": "A test compares the components of one momentum before and after one boost; that three matrix representations agree with each other for every axis and every sequence, and that each sequence is undone by its inverse, are identities over all real parameters.", "anchors": ["src/Transform.cpp:24-97", "src/Transform.cpp:99-149", "src/Transform.cpp:181-214", "src/Wigner.cpp:100-128", "src/DiracMatrices.cpp:11-25"]}
{"id": "C74", "title": "Adaptive integration", "statement": "Integrating a function of two to fifteen variables over a box returns the sum of the estimates for the regions of a division of the box: the regions fill the box and do not overlap, it is always the region with the largest error that is divided, in the direction in which the function bends most, and it ends with ten digits by the errors the rule states or with the million evaluations used up. Polynomials of degree seven are integrated exactly with the nodes and weights of Genz and Malik, which those of the code are to fifteen digits.", "quantifier": "for every function, box and number of dimensions from two to fifteen; for every polynomial of degree at most seven", "why_tests_cant": "A test compares a few integrals with known values; that the heap hands out the worst region and the parts always add up to the whole is a matter of every run, and exactness is about all polynomials.", "anchors": ["AmpGen/NumericalIntegration.h:62-204", "AmpGen/simd/integrate_fp.h:10-173"]}
{"id": "C75", "title": "Barrier factors and running widths", "statement": "The breakup momentum of two particles is the one with which their energies add up to the mass, and zero below the threshold; the barrier factors are the transmissions of the centrifugal barrier, one at the momentum of normalisation and falling with the orbital angular momentum; the running width is the nominal one at the nominal mass, positive above and zero below the threshold.", "quantifier": "for all masses, invariant masses, radii, widths, and all orbital angular momenta that the code has a formula for", "why_tests_cant": "A test checks the factor at a momentum or two; that the closed polynomial forms are the moduli of spherical Hankel functions at every momentum, and that the width vanishes exactly at the threshold, are identities over all reals.", "anchors": ["src/Lineshapes.cpp:11-94", "src/Lineshapes/BW.cpp:60-96", "src/Lineshapes/CoupledChannel.cpp:99-109"]}
{"id": "C76", "title": "Breit-Wigner shapes", "statement": "The Breit-Wigner of constant width, with its factor k, is a density of integral one in the mass, and the nonrelativistic one a Cauchy distribution; every shape with a running width scatters elastically in its channels, peaks at its mass, and its phase rises; the Gounaris-Sakurai shape has the nominal mass and width; the Flatte shape adds up the widths of its open channels.", "quantifier": "for all masses, widths, radii, orbital angular momenta and invariant masses", "why_tests_cant": "A test evaluates a shape at a few points; a normalisation is an integral over all masses and unitarity an identity at every mass.", "anchors": ["src/Lineshapes/BW.cpp:60-96", "src/Lineshapes/NonRelBW.cpp:13-23", "src/Lineshapes/GounarisSakurai.cpp:15-55", "src/Lineshapes/Flatte.cpp:9-65"]}
{"id": "C77", "title": "K matrices are unitary", "statement": "The propagator of a K matrix is the inverse of 1 - i K rho for any number of open channels and never divides by zero; the scattering amplitude built with it is symmetric and unitary, whatever the poles, couplings, background and Adler factor; with one pole it is a Flatte shape, with one channel a Breit-Wigner; the two-channel shapes are the same amplitude; the phase space is twice the momentum over the energy; the production vector is a sum of poles and a background.", "quantifier": "for every number of channels and poles, all real symmetric K matrices, all nonnegative phase spaces and all invariant masses off the poles", "why_tests_cant": "A test evaluates one K matrix at one energy; unitarity at every energy for every number of channels needs the inversion to be right for all matrices of this form.", "anchors": ["src/Lineshapes/kMatrix.cpp:20-180", "src/Lineshapes/GenericKmatrix.cpp:118-167", "src/Lineshapes/kMatrixSimple.cpp:30-83", "src/Lineshapes/FOCUS.cpp:18-80", "src/Lineshapes/PALANO.cpp:20-85", "src/Lineshapes/CoupledChannel.cpp:37-49"]}
{"id": "C78", "title": "S-wave shapes are elastic", "statement": "The LASS amplitude is elastic: its S matrix is that of the background times that of the resonance, and it is sin(delta) e^(i delta) / rho of the sum of the two phases; the generalised one reduces to it and is the documented combination of the two phases; the isotensor amplitude is elastic and the one with inelastic splines has the modulus and phase of its splines.", "quantifier": "for all masses, widths, scattering lengths, effective ranges, couplings, phases and invariant masses above the threshold", "why_tests_cant": "A test compares a curve with a stored one; that a shape never creates probability is about every value of its parameters and every energy.", "anchors": ["src/Lineshapes/LASS.cpp:13-52", "src/Lineshapes/GLASS.cpp:13-43", "src/Lineshapes/Isotensor.cpp:12-29", "src/Lineshapes/SplineShapes.cpp:94-101", "AmpGen/Lineshapes.h:245-272"]}
{"id": "C79", "title": "Orbital tensors and spin projectors", "statement": "The orbital P wave is the part of the momentum difference orthogonal to the decaying momentum, it is unchanged when a multiple of that momentum is added, and in the rest frame it is the spatial part; the projectors of spin 1 and 2 make states of that spin of everything and keep every such state; the D wave is the spin-2 part of the product of the momentum difference with itself; all of them turn with the frame.", "quantifier": "for all complex momenta with nonzero square, all tensors and all Lorentz maps", "why_tests_cant": "A test evaluates the tensors for one decay; that no frame and no momentum gives a component of another spin is a statement about all of them.", "anchors": ["src/Vertex.cpp:67-95", "AmpGen/Vertex.h:20-60"]}
{"id": "C80", "title": "Vertices of bosons conserve spin and turn with the frame", "statement": "The tensor of a decaying vector is transverse and that of a decaying tensor is a state of spin 2; every vertex is covariant, with the sign of the map for those with one antisymmetric tensor; exchanging two vectors changes nothing but the sign of the exchange; the result is proportional to the amplitude of a scalar product; radiative vertices do not depend on the gauge of the photon and select its helicity.", "quantifier": "for all momenta, all tensors of the products, all Lorentz maps including reflections, and all gauges", "why_tests_cant": "A test compares one amplitude with a stored number, which fixes neither its behaviour in another frame nor for another polarisation.", "anchors": ["src/Vertex.cpp:163-299", "src/Vertex.cpp:334-406", "src/Vertex.cpp:47-65"]}
{"id": "C81", "title": "Vertices of fermions solve the Dirac equation and turn with the frame", "statement": "The matrices satisfy the Clifford relations; the projectors of particles and antiparticles are complementary and what they make solves the Dirac equation; the bispinor of a decaying particle solves the equation of its momentum, the tensor of a particle of spin 3/2 is a state of spin 3/2, and vectors made of two fermions are transverse; every vertex is covariant under the boosts, rotations and the reflection of space, with their bispinor matrices; the result is proportional to the amplitude of a scalar product.", "quantifier": "for all momenta of positive mass, all bispinors and tensors of the products, and all Lorentz maps with the matrices that stand for them", "why_tests_cant": "A test evaluates one decay; a wrong projector or a missing factor shows only in a cascade with other spins, and covariance is about every frame.", "anchors": ["src/Vertex.cpp:97-161", "src/Vertex.cpp:301-330", "src/FermionVertices.cpp:17-367", "src/DiracMatrices.cpp:14-19"]}
{"id": "C82", "title": "Padé approximations interpolate", "statement": "The approximation of order N of a function on an interval agrees with the function at the 2N+1 points it was made from, whenever the linear system has been solved and the denominator does not vanish there, and reproduces a function that is a ratio of two polynomials of the order wherever both are defined; the linear system can be solved for every function, a constant included.", "quantifier": "for all functions, intervals, orders and both strategies of choosing the points", "why_tests_cant": "A test compares one function at one order; exactness for every rational function, and the functions for which the system is singular, are statements about a class of functions.", "anchors": ["src/Pade.cpp:11-40", "AmpGen/Pade.h:10-57"]}
{"id": "C83", "title": "The polarised sum is normalised", "statement": "After any sequence of calls of prepare() with changed couplings, polarisations and amplitudes, the norm of a PolarisedSum is the weighted average of its density over the integration sample, also with the parameter polFrac; the components of the pairs of amplitudes add up to the density.", "quantifier": "for all numbers of states and amplitudes, samples, couplings, polarisations, and histories of which amplitudes changed", "why_tests_cant": "A fit that is wrong by a factor depending on a parameter still converges; which integrals are out of date depends on the whole history of calls.", "anchors": ["src/PolarisedSum.cpp:120-233", "src/PolarisedSum.cpp:255-318", "src/PolarisedSum.cpp:381-427", "src/PolarisedSum.cpp:429-475"]}
{"id": "C84", "title": "Density matrices of spin", "statement": "All combinations of polarisation states are made, in the order in which the transition matrix reads them; the density matrix is hermitian with the right trace; for spin 1/2 and spin 1 the density of a fully polarised particle is proportional to the probability to find it in that state.", "quantifier": "for all lists of states, all polarisation vectors and tensors, all states of spin 1/2 and spin 1, all transition matrices", "why_tests_cant": "A coefficient of one element of the matrix affects only the distribution of one angle; a test of one polarisation along z cannot see it.", "anchors": ["AmpGen/Utilities.h:174-192", "src/ParticleProperties.cpp:27-38", "src/EventType.cpp:71-76", "src/PolarisedSum.cpp:137-170", "src/PolarisedSum.cpp:365-427"]}
{"id": "C85", "title": "An incoherent sum is a normalised density", "statement": "For a sum of amplitudes without interference, after any sequence of changes of parameters, data sets and integration samples ended by prepare(), the density of an event is the sum of the squared moduli of coupling times amplitude for the present parameters, whether it is taken from the caches or computed afresh; norm() is the mean of that density over the integration sample; the normalised density has the weight of the sum as its mean; and the fit fractions are the shares of the terms, between 0 and 1, and add up to 1.", "quantifier": "For all sets of elements with different names, all histories of changes and preparations, all parameter values, samples and weights.", "why_tests_cant": "The caches and integrals depend on the whole history of changes, and a missing or extra interference term only shows for particular overlapping amplitudes.", "anchors": ["src/IncoherentSum.cpp:25-39", "src/IncoherentSum.cpp:70-130", "src/IncoherentSum.cpp:150-194", "AmpGen/IncoherentSum.h:60-61", "src/CoherentSum.cpp:108-123", "AmpGen/FitFraction.h:62-94"]}
{"id": "C86", "title": "A fit minimises minus twice the log-likelihood", "statement": "The value of a sum of densities on a sample is minus twice the logarithm of the likelihood for the present parameters, and a simultaneous fit has the product of the likelihoods; constraints multiply the likelihood by a density, so that a penalty for moving away from what is asked for raises the value that is minimised; the value reported for a fit is the one that was minimised.", "quantifier": "For all samples, weights, numbers of densities, parameters they were prepared for before, constraints and parameter values.", "why_tests_cant": "A wrong sign or a missing term leaves a function that still has minima for most data, and only some parameter values show it.", "anchors": ["AmpGen/SumPDF.h:60-105", "AmpGen/SimPDF.h:12-17", "src/Minimiser.cpp:85-95", "src/ExtendLikelihoodBase.cpp:15-18", "src/LASSO.cpp:14-22", "src/PartialWidthConstraint.cpp:17-37"]}
{"id": "C87", "title": "A fit leaves the parameters at the minimum", "statement": "After a fit the floating parameters have the values and errors of the minimum, whatever points were tried on the way, and nothing else has changed; asymmetric errors, scans and gradient tests evaluate the function at other points and then restore the parameters.", "quantifier": "For all parameter sets, floating parameters, sequences of points tried by the minimiser, answers of it, ranges and steps.", "why_tests_cant": "The points that a minimiser tries depend on the data, and a parameter left a little away from the minimum goes unnoticed.", "anchors": ["src/Minimiser.cpp:85-115", "src/Minimiser.cpp:188-235", "src/Minimiser.cpp:277-293", "src/Minimiser.cpp:328-352", "src/MinuitParameter.cpp:60-75"]}
{"id": "C88", "title": "Amplitudes are symmetric under exchange of identical particles", "statement": "Every stable particle of a decay gets its own place in the event, and the amplitude is the sum over all arrangements of identical particles in those places, each once and with the sign of the exchanged fermions, divided by the root of their number: exchanging identical bosons in an event leaves every amplitude as it is, exchanging identical fermions changes its sign.", "quantifier": "For all event types, decay trees, line shapes, spin factors, polarisations, events and pairs of identical particles.", "why_tests_cant": "Tests compare a few decays with stored numbers; an arrangement that is left out or a wrong sign only shows for other final states.", "anchors": ["src/Particle.cpp:99-111", "src/Particle.cpp:325-344", "src/Particle.cpp:386-410", "src/Particle.cpp:425-500", "src/Particle.cpp:849-855"]}
{"id": "C89", "title": "Helicity amplitudes of a decay chain", "statement": "The helicity amplitude of a chain is defined for every projection of its spin. Summed over the projections, the rate of a decay and its interference with another decay of the same particle do not depend on the direction of the decay. Summed over all helicities, amplitudes with different L and S do not interfere, and each has rate one. Where the user gives no S, the least that couples with L is used. Frames are cached under a key that only the same particle has.", "quantifier": "All decay chains, spins, projections, momenta that are not along the axis, and couplings.", "why_tests_cant": "Tests evaluate a few amplitudes at a few momenta; isotropy and orthogonality are identities over all spins and directions.", "anchors": ["src/Wigner.cpp:128-160", "src/Wigner.cpp:225-337", "src/Expression.cpp:322-327"]}
{"id": "C90", "title": "The chi2 of a binned comparison of data and simulation", "statement": "Chi2Estimator gives the sum over the bins of the squared difference of data and prediction over its variance, with the prediction normalised to the data, whatever the order of the events. The value is not negative, is zero only if the prediction agrees in every bin, and depends neither on the normalisation of the model nor on a common factor of the weights.", "quantifier": "All events, weights, densities, bin assignments and models.", "why_tests_cant": "A test compares a few numbers; independence of order, of normalisation and of weight factors is about all samples.", "anchors": ["src/Chi2Estimator.cpp:14-77"]}
{"id": "C91", "title": "Generation of a decay in steps gives consistent events", "statement": "RecursivePhaseSpace gives every final state of the decay a place of its own in the event, one of its own name. The event has one momentum per particle of the event type, the momenta add up to the head at rest, and the final states of each intermediate particle have exactly its mass.", "quantifier": "All decay chains, event types that are a reordering of the final states, and momenta drawn for the steps.", "why_tests_cant": "A test generates events of one decay; that places are a permutation, and masses are kept through any nesting of boosts, is about all decay trees.", "anchors": ["src/RecursivePhaseSpace.cpp:13-82", "AmpGen/RecursivePhaseSpace.h:20-45"]}
{"id": "C92", "title": "The running width of a three-body decay", "statement": "updateRunningWidth sets the knots, equidistant between the limits, to the total width there over that at the mass, so that a knot at the squared mass is one; nothing else is changed and a common factor of the widths does not matter. The matrix element averaged over spins is the sum over components of the squared modulus of the sum of the currents.", "quantifier": "All widths as functions of the squared mass, numbers of knots, limits, parameter sets, masses; all sets of currents of any spin.", "why_tests_cant": "A test looks at one decay; positivity of the average and the normalisation are about all currents and widths.", "anchors": ["src/ThreeBodyCalculators.cpp:46-267", "src/Tensor.cpp:242-259"]}
{"id": "C93", "title": "The square Dalitz plot covers the Dalitz plot with the right measure", "statement": "setEvent of DalitzIntegrator turns every point of the unit square into three momenta with the masses of the products and of the mother; sqDp1 and sqDp2 give the point back, every mass and angle is reached, and J is the modulus of the Jacobian from the square to the plane of squared masses of pairs.", "quantifier": "All masses for which the decay is possible, all points of the square, all functions integrated.", "why_tests_cant": "A test evaluates points; that the map is onto with the right measure is a statement about all points and masses.", "anchors": ["src/DalitzIntegrator.cpp:33-153", "AmpGen/DalitzIntegrator.h:30-98"]}
{"id": "C94", "title": "External states are complete sets of spin states", "statement": "externalSpinTensor gives, for every momentum on the mass shell, states that are transverse, orthonormal and complete for a vector and solve the Dirac equation, are normalised and sum to the projector for a fermion or antifermion; in the Dirac basis they are boosted rest states, in the Weyl basis helicity states; charge conjugation takes state s to state -s of the antiparticle; and the rate summed over the states does not depend on Particle::SpinBasis.", "quantifier": "All momenta on the mass shell, masses, particles and antiparticles of spin 1/2 and 1, both bases, all decay spin tensors.", "why_tests_cant": "The identities hold for a continuum of momenta; a test tries a few and cannot see the measure-zero and near-axis branches.", "anchors": ["src/Particle.cpp:531-597", "src/Particle.cpp:833-847", "src/Particle.cpp:440-461", "src/ParticleProperties.cpp:27-39"]}
{"id": "C95", "title": "Decays are compared by what distinguishes them", "statement": "Particle::matches of two decays is Exact if and only if names, orbital angular momenta and polarisation states agree at every place; every other flag is set if and only if two particles at the same place differ in that way; the result does not depend on the order of the arguments; and the channel the K-matrix line shape looks up is the first one that is the same decay.", "quantifier": "All pairs of decay trees, all lists of channels.", "why_tests_cant": "The flags are combined over a recursion of arbitrary shape; tests cover a few trees.", "anchors": ["src/Particle.cpp:857-876", "AmpGen/Particle.h:258-265", "src/Lineshapes/GenericKmatrix.cpp:26-38"]}
{"id": "C96", "title": "A clone of a decay shares nothing with it, and expanding puts a decay where a particle was", "statement": "Particle::clone makes the same decay in memory of its own, so that no change of one is seen in the other; expand replaces the first undecayed particle of the name by the decay given, and changes nothing otherwise.", "quantifier": "All decay trees, all states of memory that hold them, all later changes.", "why_tests_cant": "Sharing of daughters by pointers shows only in later changes through another handle.", "anchors": ["src/Particle.cpp:902-923", "AmpGen/Particle.h:258-265"]}
{"id": "C97", "title": "The quasi-stable tree keeps the final state and only the particles that live long", "statement": "quasiStableTree gives a decay with the same head and, up to order, the same final state particles; the particles that decay in it below the head are those that are quasi-stable.", "quantifier": "All decay trees, all sets of quasi-stable particles, all orders of daughters.", "why_tests_cant": "A recursion over trees of any depth; tests try a few decays.", "anchors": ["src/Particle.cpp:346-359"]}
{"id": "C98", "title": "Amplitudes under space inversion", "statement": "For a decay whose spin tensor is built from the known vertices, the tensor for the event with all momenta inverted is the tensor for the event, with its indices inverted in space, times finalStateParity(); a symmetrised term and its propagator change by the same sign; hence AMP(event, -1) of a CoherentSum is the amplitude of the inverted event, and AMP(event, +1) that of the event.", "quantifier": "every decay tree of the modelled vertices, every event, every list of terms and couplings", "why_tests_cant": "infinitely many trees and events; the sign is chosen once per tree and a test checks only single trees", "anchors": ["src/Particle.cpp:750-762", "src/Particle.cpp:502-528", "src/Particle.cpp:233-261", "src/Particle.cpp:423-500", "src/CoherentSum.cpp:180-200", "src/Vertex.cpp:34-61"]}
{"id": "C99", "title": "Conjugate parameters", "statement": "AddCPConjugate keeps the parameters of the set, adds each conjugate once and under a new name, and a conjugate has at all times the value of the original times its CP factor; the coupling of the conjugate decay is then CP() times the coupling of the decay in Cartesian and in polar coordinates; calling it again adds nothing if conjugation of names is an involution.", "quantifier": "every parameter set, every naming of decays, every later value of the parameters", "why_tests_cant": "all parameter sets and all later parameter values of a fit", "anchors": ["src/AddCPConjugate.cpp:15-77", "src/MinuitExpression.cpp:12-29", "src/ExpressionParser.cpp:240-273", "src/AmplitudeRules.cpp:21-52", "src/AmplitudeRules.cpp:122-125"]}
{"id": "C100", "title": "Functions for plots", "statement": "evaluator(events) and amplitudeEvaluator(events) of a coherent or incoherent sum give, for every event of the list, weight/norm times the squared modulus of the sum of the amplitudes (the sum of the squared moduli), whatever the number of events per SIMD block; the functors of componentEvaluator(events) are one for each pair of elements and add up, for every event, to the squared modulus of the amplitude; the evaluator of a SumPDF is the sum of those of its distributions.", "quantifier": "every list of elements with distinct names, every number of events and width of blocks, every event", "why_tests_cant": "all numbers of events relative to the width of a block, and all sets of amplitudes", "anchors": ["src/CoherentSum.cpp:321-399", "src/IncoherentSum.cpp:152-198", "AmpGen/SumPDF.h:120-137", "AmpGen/Store.h:60-82", "AmpGen/Store.h:120-186", "AmpGen/KeyedFunctors.h:12-27", "AmpGen/Utilities.h:168-172"]}
{"id": "C101", "title": "Projections", "statement": "Plotting a projection of a list of events fills each bin with the sum of the weights of the selected events whose value lies in it; with component functions every component gives one histogram named by prefix, key and projection, all scaled by one factor so that the stack has the requested normalisation, and a stack of components adding up to the density is the histogram of the density; the order of the options does not matter; binFunctor gives the bin of the histogram.", "quantifier": "every list of events, every selection, weight function, set of components and set of options in any order", "why_tests_cant": "all event lists, binnings, component sets and orders of options", "anchors": ["src/Projection.cpp:18-57", "src/Projection.cpp:79-156", "AmpGen/ArgumentPack.h:65-96", "AmpGen/KeyedFunctors.h:12-27", "AmpGen/Projection.h:23-100"]}
{"id": "C102", "title": "Events in blocks", "statement": "A list of events converted to or read into blocks of w events (EventListSIMD) has the same size and the same events at the same positions; a loop visits them in order and transform applies the function to each once; the likelihood and the Monte-Carlo averages over the blocks are those over the events, the lanes behind the last event contributing nothing; a list read from several files holds the events of all of them.", "quantifier": "every list of events, every number of events relative to the width of a block, every density and function of the events", "why_tests_cant": "all numbers of events modulo the width of a block", "anchors": ["src/EventListSIMD.cpp:119-151", "src/EventListSIMD.cpp:215-253", "AmpGen/simd/utils.h:65-89", "AmpGen/simd/iterator.h:11-37", "AmpGen/EventListSIMD.h:52-91", "AmpGen/SumPDF.h:59-87", "AmpGen/Integrator.h:34-49"]}
{"id": "C103", "title": "Event types and their default projections cover the decay", "statement": "The default projections of an event type are one for each choice of at least two and not all of its final-state particles, each once; every kinematically allowed event has the value of every projection inside its plotted range, for squared masses and for masses. count gives the rank of a particle among those of its name and their number, two event types are equal exactly when mother and ordered final states agree, conjugation replaces every particle by its antiparticle at the same place with the same mass and is its own inverse", "quantifier": "for all event types with any number of particles and any masses, all events with these masses and the mass of the mother, all numbers of bins, all tables of particles closed under conjugation", "why_tests_cant": "the number of combinations, events and masses is unbounded; a plot whose range cuts off allowed events only shows for special masses", "anchors": ["src/EventType.cpp:27-66", "src/EventType.cpp:106-135", "src/EventType.cpp:158-206", "AmpGen/Utilities.h:46-57"]}
{"id": "C104", "title": "The list of fit fractions covers every decay and adds up", "statement": "fitFractions lists, for each particle with decay rules, the fractions of its decays with the largest first, followed by their sum, each with its own error. When every amplitude belongs to exactly one of several decays of the mother, each decay with amplitudes is listed with its share of the total, and the sum of the fractions plus twice the sum of the interference fractions is one. The amplitudes of a process are exactly those with a coupling of it", "quantifier": "for all sets of amplitudes, decay rules, couplings and integrals with a total different from zero, and all errors", "why_tests_cant": "the bookkeeping depends on names of decays occurring in each other and on the number of rules and prefixes, which no fixed model exercises", "anchors": ["src/CoherentSum.cpp:142-178", "AmpGen/FitFraction.h:41-107", "src/MatrixElement.cpp:34-83", "src/AmplitudeRules.cpp:92-105", "src/AmplitudeRules.cpp:177-180"]}
{"id": "C105", "title": "Events written to a tree and read from one", "statement": "EventList::tree writes every event with its values, weight and density under the names of the event format, and loadFromTree gives, for each row in order, the event whose values are those of the named columns: with the columns of the format, with four branches for each particle, or with three, when the energies follow from the masses; values are converted to GeV, extra branches are appended, weight and density are 1 if they are not read. Writing and reading again gives the same events. With a list of entries or a filter the events are those of the entries selected.", "quantifier": "for all trees, event formats, branches, extra branches, units, weights, entry lists and filters, and all lists of events", "why_tests_cant": "a test reads one file with one choice of arguments and looks at a few numbers; the place of a value depends on the number of branches given, and reading past an entry list shows nothing on most runs", "anchors": ["src/EventList.cpp:63-168", "src/TreeReader.cpp:9-47", "AmpGen/TreeReader.h:25-95"]}
{"id": "C106", "title": "Shapes of the remaining lineshapes", "statement": "The polynomial lineshapes are the polynomials of their parameters; the Gaussian is 1 at its mean only, and falls with the distance from it; for an eta of its nominal mass the shape is the root of the documented distribution of the kinetic energies; the amplitude of Bugg respects unitarity of the scattering of two pions, exactly where no four pions can be produced, and is purely due to the width at its mass", "quantifier": "for all degrees, coefficients, means, widths, momenta of three particles on their mass shells, masses, and for all parameters of Bugg's amplitude that are physical and all masses above two pions", "why_tests_cant": "unitarity and the behaviour in the whole range concern real numbers of which tests sample a few; that the root is never taken of a negative number needs a bound over the whole phase space", "anchors": ["src/Lineshapes/Bugg.cpp:12-98", "src/Lineshapes/EtaDalitz.cpp:13-32", "src/Lineshapes/Gaussian.cpp:9-15", "src/Lineshapes/Poly.cpp:10-18", "src/Lineshapes/PolyNR.cpp:10-40", "src/Lineshapes.cpp:135-144"]}
{"id": "C107", "title": "The propagator of a decay is the product of the lineshapes of its particles", "statement": "Particle::propagator of a decay tree is the product, over all particles that decay, of the value of the lineshape each names. A particle that decays to a single one and has a Breit-Wigner or a form factor counts as one, and a plain Breit-Wigner decaying to three or more particles is that of fixed width. A lineshape is found by the name before the first point, with what follows as its modifier; shapes of two particles are functions of the squared masses of the particle and of its first two daughters, and EtaDalitz multiplies the lineshape its modifier names. Every lineshape that comes from a decay descriptor, whatever its modifiers, is one that is registered, so the propagator has a value.", "quantifier": "for all decay trees of any depth and multiplicity, all sets of registered lineshapes, all modifiers in the descriptor and all texts of lineshapes", "why_tests_cant": "Tests evaluate a few decays with the usual lineshapes. That the product runs over every particle exactly once, and that no modifier leads to an unknown lineshape, needs an induction over trees and over lists of modifiers.", "anchors": ["src/Particle.cpp:361-385", "AmpGen/Factory.h:19-48", "src/Lineshapes.cpp:96-134", "AmpGen/Lineshapes.h:44-80", "src/Lineshapes/EtaDalitz.cpp:28-29"]}
{"id": "C108", "title": "Compiled amplitudes call their own code, also with a cache of objects", "statement": "After CompilerWrapper::compile an expression calls the code generated from it, whether its library is compiled now or found in a directory of objects from earlier compilations and processes, provided expressions whose names have the same hash have the same code. Libraries of other expressions are never changed, a function that is called is never null, and many expressions compiled to one file each get their own code. The directory with objects is used only by name: changed code, a failing compiler, equal hashes and names with the same function name are not noticed.", "quantifier": "for all histories of compilations, forced rebuilds and restarts of any length, all expressions and directories, all compilers that accept or refuse programs", "why_tests_cant": "Tests compile a few expressions in an empty directory. Stale or colliding objects appear only over several runs, and depend on the whole history of the directory.", "anchors": ["src/CompilerWrapper.cpp:70-133", "src/CompilerWrapper.cpp:152-202", "AmpGen/CompiledExpression.h:183-195", "AmpGen/DynamicFCN.h:60-70", "src/CompiledExpressionBase.cpp:36-46", "src/CompiledExpressionBase.cpp:71-125"]}
{"id": "C109", "title": "Terms of the likelihood are configured as their text says", "statement": "A GaussianConstraint configured with a name and two numbers constrains the parameter of that name to this mean and width, and with PDG to the mass or width of the particle and its error in the table. A LASSO has the weight that is written. A PartialWidthConstraint relates the decays of the amplitude that its options name, each found as the first with this decay descriptor, and findIndices finds all decays that contain a text. A decay that the amplitude does not have, or a parameter that does not exist, is not noticed.", "quantifier": "for all texts of words, all parameter sets, tables of particles, options and amplitudes", "why_tests_cant": "Tests configure one constraint correctly. What a text with other words, an unknown decay or a term made by its name lead to needs reasoning about all texts and lists.", "anchors": ["src/ExtendLikelihoodBase.cpp:20-48", "src/LASSO.cpp:24-29", "src/PartialWidthConstraint.cpp:39-61", "src/MatrixElement.cpp:67-95", "AmpGen/ExtendLikelihoodBase.h:22-66", "AmpGen/Factory.h:30-41", "src/MinuitParameterSet.cpp:89-96"]}
{"id": "C110", "title": "Containers filled on demand and small vectors", "statement": "A loop over a DynamicContainer whose generator gives blocks of the same non-zero size sees the elements of the generator in order, none left out or seen twice, as many as the container was asked to hold, and the generator is called no more often than is needed; a block without elements is undefined. A SmallVector holds exactly what is given to it, in a list or one by one, up to its size, and more is undefined behaviour; vectors with the same number of elements are equal exactly if their elements are.", "quantifier": "For all generators, element types, total sizes and block sizes, and all lists of elements and sizes of the array.", "why_tests_cant": "Where a block ends relative to the total size depends on both sizes, and the loss of elements is silent; tests fix one pair of sizes.", "anchors": ["AmpGen/DynamicContainer.h:19-73", "AmpGen/SmallVector.h:4-36", "AmpGen/DecayChainStack.h:204-205"]}
{"id": "C111", "title": "Spin states at the ends of a helicity amplitude", "statement": "The helicity formalism projects the state of a final particle on states of definite projection in the frame it reaches. For every Lorentz frame in which the particle is at rest the overlaps keep the product of two states, so they are a unitary matrix and the rate summed over projections does not depend on the frame: for vectors, for photons in a frame where they fly along the third axis with two projections, for particles and antiparticles of spin one half. The states are those of projection M along the third axis: a turn by phi multiplies them by exp(-i M phi). Couplings given by the user are read in sets of three, factor and two projections, in order; an empty list is fatal.", "quantifier": "For all momenta, masses, Lorentz transformations with their inverses, states transverse to the momentum or solving the Dirac equation, angles, identifiers and lists of numbers.", "why_tests_cant": "The overlaps enter only through interference between amplitudes; a wrong phase or a frame that is not inverted leaves most projections of most decays unchanged.", "anchors": ["src/Wigner.cpp:187-205", "src/Wigner.cpp:207-223", "src/Wigner.cpp:264-288", "AmpGen/Wigner.h:42-49"]}
