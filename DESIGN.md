# Formal model of AmpGen in Rocq (Coq 8.16.1)

## Layout

`rocq/theories/<Area>/Model.v` — executable Gallina transcription of the C++ (no proofs); every definition cites file and lines of /repo.
`rocq/theories/<Area>/Spec.v` — small specification, independent of the model's helpers.
`rocq/theories/<Area>/Proofs.v` — lemmas.
`rocq/theories/<Area>/Props.v` — only property theorems (`exact lemma`), an `Example` beside each showing a non-trivial instance, and `Print Assumptions`.

Naming: `..._partial` — a proved part of a property whose full statement is false or not (yet) proved; `..._refuted` — a witness that the
full property is false of the faithful model (a finding about the code).

## Modelling conventions

* `std::string` is `list ascii`; `std::vector<T>` is `list T`; `std::map<string,T>` is an association list with unique keys (the
  iteration order of the map matters only where said so).
* Unsigned arithmetic is modelled with explicit wrap where the property is about it; otherwise indices are `nat`.
* Undefined behaviour (out-of-range access, null/end dereference, read of indeterminate value) is a distinct outcome (`UB`), never a default.
* Loops that need not terminate use fuel with a distinct `OutOfFuel` outcome, excluded (or proved unavoidable) in the statements.
* Real-valued code (`double`) is modelled over an exact field / `R` / `Q`: rounding is not modelled unless a property says so. This is a
  recorded simplification: theorems about real-valued code say that the formulas are right, not that rounding is harmless.

## Plan per property

| id | property | model and proof |
|---|---|---|
| C01 | Splitting on a delimiter set loses nothing | Utilities: transcription of the split loop over list ascii; induction with an accumulator invariant. |
| C02 | Splitting on one character is a left inverse of joining | Utilities: getline loop; induction over the token list. |
| C03 | replaceAll substitutes every occurrence and terminates | Utilities: find/replace loop with fuel; spec = left-to-right substitution; refuted (shorter and longer replacement), non-termination proved for every fuel; partial for equal length. |
| C04 | Wildcard matching follows glob semantics | Utilities: transcription; spec = relation `glob`; refuted both ways; partial for patterns with at most a trailing star. |
| C05 | Edit distance is the Levenshtein distance | Utilities: DP rows; spec = inductive edit scripts; prove soundness and minimality. |
| C06 | Permutation parity of identical-particle exchange | Utilities: cycle walk; spec = transposition sequences; parity refuted for a 3-cycle; minimality proved. |
| C07 | Trimming removes exactly the surrounding white space | Utilities: trim as drop-while both ends; spec by decomposition. |
| C08 | Expression keys identify expressions | Utilities: FNV-1a with wrap; refuted by a concrete collision; partial under injectivity on the set used. |
| C09 | Options lines tokenise as written | Options: character loop; spec = printing of word lists; round trip by induction. |
| C10 | The last definition of an option wins and is seen once | Options: map + ordered keys state machine; refuted for repeated keys; partial otherwise. |
| C11 | Multi-line options blocks are accumulated completely | Options: line accumulation state machine; refuted (trailing unbalanced text dropped); partial for balanced files. |
| C12 | Parameter sets index parameters consistently | Minuit: state machine over operations with pointers as ids; refuted; partial for histories without duplicates and removals. |
| C13 | Minimiser values reach exactly the floating parameters | Minuit: mapping, update and covariance placement. |
| C14 | Parameter lines are read as declared | Minuit: decision procedure on token lists with an abstract number reader. |
| C15 | Enumerations round-trip through text | Enum: transcription of the two char-walking loops; round trip proved; refuted for numbers and empty word. |
| C16 | A parameter constructed from a value holds that value | Minuit: delegating constructor reading its own members: UB outcome. |
| C17 | Blinded values do not leak through fit output | FitResult: output token model; non-interference; refuted for writeOptions. |
| C18 | Fit results survive writing and reading | FitResult: line/token model of writer and reader; refuted (UB on every parameter line, shifted covariance). |
| C19 | Algebraic constructors preserve the value of expressions | Expr: AST over an abstract field, evaluation and smart constructors. |
| C20 | Generated source text means what the expression means | Expr: printer to tokens and an independent precedence grammar as a relation. |
| C21 | Typed expressions parse with the documented precedence | Parser: transcription of the token passes; spec = precedence levels. |
| C22 | Normal ordering preserves the value | Simplify: transcription; refuted for unlisted binary operators; partial for the arithmetic fragment. |
| C23 | Common sub-expressions are defined before use, once, and completely | Resolver: transcription of the work-list; invariants over DAGs. |
| C24 | Cached parameters and functions occupy disjoint storage | Resolver: registration state machine. |
| C25 | Derivatives of unary functions are the mathematical derivatives | Expr: derivatives over R with derivable_pt_lim; ASin/ACos refuted. |
| C26 | Tensor indexing is a bijection | Tensor: mixed radix; round trip by induction. |
| C27 | Indexed tensor products follow the summation convention | Tensor: transcription of the contraction loops; spec = Einstein sum. |
| C28 | The Levi-Civita tensor is totally antisymmetric | Tensor: transcription; spec = inversion parity. |
| C29 | Matrix inversion inverts | Tensor: Crout LU over a field; algebra. |
| C30 | Stored values are independent cells | Store: layouts; frame lemmas. |
| C31 | Each cached function owns its fields | Store: registration state machine. |
| C32 | Cached amplitudes are never stale | Caching: state machine of external values, change flags, cached columns; invariant over all histories. |
| C33 | The normalisation is the average of the probability density | Coherent: complex sums over R. |
| C34 | Queued integrals are each computed exactly once | Coherent: queue state machine. |
| C35 | Fit fractions and interference fractions sum to one | Coherent: double-sum identity. |
| C36 | Thread-pool tasks run exactly once | ThreadPool: small-step interleaving semantics, invariants. |
| C37 | Adaptive binning partitions the phase space | Binning: tree over an ordered field (Q/R). |
| C38 | Binnings survive serialisation | Binning: token-stream serialisation with abstract lossless numbers. |
| C39 | Flat decision trees agree with their training partition | Binning: array tree with explicit bounds. |
| C40 | The integral of an event list is the sum of weights | Events: integer truncation explicit; refuted; partial for integral weights. |
| C41 | Events know their position | Events: state machine over list operations. |
| C42 | Event branches map to distinct slots | Events: name to slot map; refuted without energies; proved with. |
| C43 | Automatic ordering permutes events into the declared order | Events: transcription; refuted; partial under equal multiplicities. |
| C44 | Reordering momenta preserves invariants | Events: four-momentum blocks over R. |
| C45 | Generation yields the requested number of accepted events | Generator: block loop over random streams with fuel. |
| C46 | Phase-space events conserve four-momentum and are on shell | Phsp: induction over the boost/rotate loop over R. |
| C47 | Decay-chain phase space respects the chain kinematics | Phsp: boosts over R; acceptance ceiling refuted. |
| C48 | Discrete sampling has the requested probabilities | Discrete: alias buckets over R; measure as sum of interval lengths. |
| C49 | Compensated summation equals the sum in exact arithmetic and keeps the lost part | Kahan: over R with an arbitrary rounding function. |
| C50 | Quark content is additive and charge conjugation an involution | Quarks: six-component integer vectors, lists of alternatives. |
| C51 | Particle and antiparticle are mutual conjugates | Props: record transcription; involution; ordering cycle refuted. |
| C52 | Printed spin denotes the spin | Props: transcription of J(); refuted for half-integers. |
| C53 | Daughter ordering is a strict weak order | Particle: comparison transcription; cycle refuted; partial when the tie-break does not mix. |
| C54 | Allowed spin-orbit couplings are the angular-momentum triangle | Particle: enumeration over doubled spins. |
| C55 | Decay descriptors round-trip | Particle: getItems transcription over trees. |
| C56 | Clebsch-Gordan coefficients obey the selection rules | Wigner: doubled-spin integers; sums over R. |
| C57 | Cascade rules combine each coupling exactly once per decay | Rules: expansion over trees/text; refuted for identical daughters. |
| C58 | Generated symbol names are identifiers and distinct | Names: character map. |
| C59 | Linear error propagation is a quadratic form and restores parameters | Errors: matrices over a field. |
| C60 | swapChars is an involution | Utilities: character map. |
| C61 | Reading an options file terminates | Options: nested imports with fuel; rank argument. |
| C62 | Redeclaring a parameter in the options overrides it | Minuit/Load: options parser composed with the parameter set; invariant `first of a name is found`. |
| C63 | Options written after a fit reload the same parameters | FitResult: writer, reader of option lines composed with tryParameter. |
| C64 | Covariances are found under the parameters they belong to | FitResult: positions by name; composition with the covariance of C13. |
| C65 | Named parameters take the given values or the default | Named: write loop into the resized array. |
| C66 | Numbered options are all collected | Named: loop with fuel over numbered lines. |
| C67 | Every expression text is read or rejected | Parser: termination by the number of tokens; counterexamples for malformed text. |
| C68 | Symmetrising exchanges only identical particles, without bias | model the shuffle with its table of places; invariant: the momentum of the k-th place is at the k-th entry of the table; bijection between draws and permutations |
| C69 | Spin couplings are orthonormal | ladder relations for the Racah sums, Vandermonde for the highest state, permutation of the spins |
| C70 | wigner_d gives the matrix of a rotation | Rotations; polynomials in two variables, binomial theorem, uniqueness of coefficients |
| C71 | Splines are natural cubic splines | Spline; tridiagonal system, uniqueness, gluing of derivatives |
| C72 | Boosts, turns and decay angles are what their names say | Vector algebra over the reals; every boost in terms of the unit direction and gamma, every angle by going to a rest frame given by an arbitrary boost |
| C73 | Boosts and rotations act alike on momenta, spinors and bispinors | Entries of the matrices by symbolic computation, axis and half angles by explicit identities; sequences by induction on how they were built; momenta, currents and gamma products by induction on the list of transforms |
| C74 | Adaptive integration | the adaptive loop with its heap as a state machine, invariant: the slots hold a division of the box; exactness by expansion into monomials, integrals of Coquelicot |
| C75 | Barrier factors and running widths | Real algebra; the barrier polynomials against reverse Bessel polynomials |
| C76 | Breit-Wigner shapes | Coquelicot integrals and limits; elasticity as an identity of complex numbers |
| C77 | K matrices are unitary | The leading blocks of 1 - i K rho have no kernel (C29 gives the inverse); matrix algebra over complex numbers |
| C78 | S-wave shapes are elastic | Polar forms of x - i y |
| C79 | Orbital tensors and spin projectors | Vertex: tensors as functions of indices over C, Minkowski product as spec; projector identities, covariance for every linear map that keeps products. |
| C80 | Vertices of bosons conserve spin and turn with the frame | Vertex: every vertex brought to a closed form with products and volumes; transversality, covariance, exchange, gauge. |
| C81 | Vertices of fermions solve the Dirac equation and turn with the frame | Vertex: matrix algebra over C, projector calculus, spin 3/2 conditions, covariance from intertwiners. |
| C82 | Padé approximations interpolate | Pade: the matrix of the linear system as it is filled, points of both strategies, evaluation by Horner sums; uniqueness of solutions by hypothesis on the solver (it returns a solution) |
| C83 | The polarised sum is normalised | Polarised: prepare() as a state transformer of the table of integrals with the elements that changed as a parameter; invariant: every entry of the table that is used is the integral for the present amplitudes |
| C84 | Density matrices of spin | Polarised: combinations as a counter, the two copies of the density matrix, spin matrices of the specification; identity of 3 times the projector on a state with the matrix made from its expectation values |
| C85 | An incoherent sum is a normalised density | Reuse the invariant of the coherent sum, extended to the elements; then sums over the diagonal of the matrix of integrals. |
| C86 | A fit minimises minus twice the log-likelihood | Compare the sums with the logarithm of a product, the constraints with Gaussian densities; find signs and missing terms by refutation. |
| C87 | A fit leaves the parameters at the minimum | The minimiser is an oracle that visits a list of points; the state after a visit is determined by the last of them. |
| C88 | Amplitudes are symmetric under exchange of identical particles | The orderings are a group that exchanges act on; the sign of minSwaps is related to the number of exchanged pairs. |
| C89 | Helicity amplitudes of a decay chain | Write an amplitude as a sum of rotation functions with coefficients that do not depend on the direction; columns of the rotation matrix are orthonormal by C70; helicity couplings are orthonormal by C69; the list of couplings is sorted, so that the first with L has the least S. |
| C90 | The chi2 of a binned comparison of data and simulation | The two filling loops by induction over the events with the contents of all bins as invariant; then algebra over finite sums. |
| C91 | Generation of a decay in steps gives consistent events | Recursive: places are assigned by name to the leaves in order; a nested event is boosted and added, so by induction over the tree leaves hold the boosted momenta and nothing else is touched; boosts keep products. |
| C92 | The running width of a three-body decay | ThreeBody: the double sum of contracted currents is swapped to a sum over components of the squared modulus with the sign of the metric; the loop over knots is followed by name. |
| C93 | The square Dalitz plot covers the Dalitz plot with the right measure | Dalitz: momenta of two-body decays in closed form; energies by completing squares; derivatives of the squared masses by Coquelicot. |
| C94 | External states are complete sets of spin states | External: momenta as real numbers, states as complex vectors; the spin sums are proved as polynomial identities modulo the mass-shell condition and the branches of the Ternary expressions. |
| C95 | Decays are compared by what distinguishes them | Tree: the comparison by structural recursion over pairs of trees, against relations on places in the tree; the flags as bits. |
| C96 | A clone of a decay shares nothing with it, and expanding puts a decay where a particle was | Tree: a heap of nodes with addresses, separation of footprints, clone and expand as functions of the heap. |
| C97 | The quasi-stable tree keeps the final state and only the particles that live long | Tree: the reduction by structural recursion, permutations of the ends, the set of particles that decay. |
| C98 | Amplitudes under space inversion | tensors over a decay tree, induction over the tree with the transformation of each vertex |
| C99 | Conjugate parameters | linked parameters as expressions over the original ones; invariants of the loop over the set |
| C100 | Functions for plots | the evaluators over the storage model of C30, invariants of registration and filling, blocks flattened to positions |
| C101 | Projections | Project: contents of the bins as sums over events by induction on the list; scaling of the components; permutation of the options |
| C102 | Events in blocks | Simd: invariant of the blocks written so far over the loops of conversion, reading and modification; sums over blocks and lanes rearranged into sums over events |
| C103 | Event types and their default projections cover the decay | Model nCr through std::next_permutation on a mask, invariant over the permutations; reversed triangle inequality for time-like vectors for the range of the projections |
| C104 | The list of fit fractions covers every decay and adds up | Model the selection of amplitudes by name, the calculators, sorting and summation; permutation of the groups onto all amplitudes and the double sum of C35 |
| C105 | Events written to a tree and read from one | reading as a loop over rows with a state; each row determines the event; round trip from that |
| C106 | Shapes of the remaining lineshapes | real analysis with complex numbers |
| C107 | The propagator of a decay is the product of the lineshapes of its particles | Induction over the decay tree for the product; invariant over the reading of modifiers for registered shapes; length of the modifier as fuel for nested shapes. |
| C108 | Compiled amplitudes call their own code, also with a cache of objects | State machine of files and loaded libraries; invariant over histories that every file holds the program of all expressions with its name. |
| C109 | Terms of the likelihood are configured as their text says | Split of joined words (C02), first position by induction over the list, evaluation by area Fit. |
| C110 | Containers filled on demand and small vectors | Model the container as buffer and number of calls, the loop as a walk with the two increments; prove by induction that at position p the buffer is block p / B, so that the loop gives the prefix of the stream; refute it for uneven blocks, second loops, constant iterators and comparison of vectors of different sizes. |
| C111 | Spin states at the ends of a helicity amplitude | Model the basis states and the overlap for a given matrix of the inverse frame; specify frames by what they preserve; move the product to the frame, where the components are explicit, and use the completeness of the basis states; refute the reading of couplings that are not given. |

## Results per property

**C01 Splitting on a delimiter set loses nothing** — proved. 
Theorems: `C01_split_delims`.

**C02 Splitting on one character is a left inverse of joining** — proved. 
Theorems: `C02_split_join`, `C02_split_lossless`.

**C03 replaceAll substitutes every occurrence and terminates** — partial. Full claim false: refuted for shorter replacements (an abutting occurrence is skipped) and for longer ones containing the pattern (no termination). Proved when |old|<=|new| and the re-read tail of new cannot start a match; termination proved when |new|<=|old|.
Theorems: `C03_replaceAll_partial`, `C03_spec_functional`, `C03_replaceAll_terminates_partial`, `C03_replaceAll_short_refuted`, `C03_replaceAll_diverges_refuted`.

**C04 Wildcard matching follows glob semantics** — partial. Full claim false both ways (witnesses abcb/a*b and a/a*a). Proved: total; exact for patterns without star, with one trailing star, and with one inner star when the last part occurs once and the text is long enough.
Theorems: `C04_wildcard_total`, `C04_wildcard_partial`, `C04_wildcard_false_negative_refuted`, `C04_wildcard_false_positive_refuted`.

**C05 Edit distance is the Levenshtein distance** — proved. 
Theorems: `C05_editDistance`.

**C06 Permutation parity of identical-particle exchange** — partial. Number of exchanges proved minimal for every permutation. Sign refuted for a 3-cycle of fermions, proved for products of disjoint exchanges.
Theorems: `C06_minSwaps_count`, `C06_minSwaps_sign_partial`, `C06_minSwaps_sign_refuted`.

**C07 Trimming removes exactly the surrounding white space** — proved. 
Theorems: `C07_trim`.

**C08 Expression keys identify expressions** — partial. The 32-bit key cannot be injective: explicit collision. Proved: one-character differences are always distinguished.
Theorems: `C08_key_partial`, `C08_key_refuted`.

**C09 Options lines tokenise as written** — partial. Exact for every line written as blank-separated words and balanced quotations with an optional comment after a blank; for every line whatsoever the result consists of pieces of the line in order. Refuted: a '#' glued to a word swallows the word.
Theorems: `C09_tokenise_partial`, `C09_pieces`, `C09_glued_comment_refuted`.

**C10 The last definition of an option wins and is seen once** — partial. Lookup returns the last line for every history. The ordered list is exact when keys are distinct; refuted when a key is repeated (listed twice).
Theorems: `C10_last_wins`, `C10_ordered_partial`, `C10_ordered_duplicate_refuted`.

**C11 Multi-line options blocks are accumulated completely** — partial. Exact for files whose blocks balance; conservation of words for every file. Refuted: an open block at the end and everything after a stray closing brace are dropped silently; a line of braces only is undefined behaviour.
Theorems: `C11_blocks_partial`, `C11_conservation`, `C11_open_block_refuted`, `C11_stray_brace_refuted`, `C11_empty_block_refuted`.

**C12 Parameter sets index parameters consistently** — partial. Proved for every history of additions of new names, addOrGet, renamings and changes of values. Refuted for adding a taken name (stored but not findable), for removal (still findable by name), for adding one object twice (double delete) and for subscripting a missing name.
Theorems: `C12_consistent_partial`, `C12_destroy_partial`, `C12_addOrGet`, `C12_rename`, `C12_duplicate_refuted`, `C12_unregister_refuted`, `C12_double_delete_refuted`, `C12_subscript_refuted`.

**C13 Minimiser values reach exactly the floating parameters** — partial. Mapping, values and covariance proved for every consistent set. Refuted: an index left over from an earlier fit lets setFromMinuitState overwrite a parameter that has been fixed since.
Theorems: `C13_values`, `C13_covariance`, `C13_stale_index_refuted`.

**C14 Parameter lines are read as declared** — partial. Declaring lines proved exact for every documented flag word. Other lines add nothing, except that the empty word and any number other than 5 pass as a flag (refuted with 17).
Theorems: `C14_declared`, `C14_nothing_partial`, `C14_number_flag_refuted`.

**C15 Enumerations round-trip through text** — partial. Names round-trip and unknown words parse as Invalid, except that the empty word parses as the first enumerator and numbers out of range are accepted.
Theorems: `C15_round_trip`, `C15_unknown_word_partial`, `C15_number`, `C15_number_refuted`, `C15_empty_refuted`.

**C16 A parameter constructed from a value holds that value** — partial. The constructor without a flag initialises its members from themselves (undefined behaviour for all arguments). The constructor with a flag is right.
Theorems: `C16_value_refuted`, `C16_flag_partial`.

**C17 Blinded values do not leak through fit output** — partial. proved for the result file, the table printed after a fit (offsets with a flag that is not printed), minos output and the printing of one parameter: two states that differ only by moving value into offset give equal output. Refuted for the options file (prints the true value), for offsets declared fixed, and a blinded parameter without offset is undefined behaviour. The statement takes sums value+offset as exact.
Theorems: `C17_file_partial`, `C17_table_partial`, `C17_minos_partial`, `C17_print_partial`, `C17_options_refuted`, `C17_fixed_offset_refuted`, `C17_no_offset_refuted`.

**C18 Fit results survive writing and reading** — partial. refuted: reading back any file with an ordinary parameter indexes past the end of the vector read. Proved for what surrounds the parameters: status, fractions and observables.
Theorems: `C18_read_refuted`, `C18_no_parameters_partial`.

**C19 Algebraic constructors preserve the value of expressions** — partial. proved for exact arithmetic and constants on which the epsilon tests are exact (for instance integers for + - *), including termination of the operators; refuted for constants below the machine epsilon and for 0/x at x=0
Theorems: `C19_add_partial`, `C19_sub_partial`, `C19_mul_partial`, `C19_div_partial`, `C19_fpow_partial`, `C19_unary`, `C19_pow_partial`, `C19_tiny_refuted`, `C19_zero_over_zero_refuted`.

**C20 Generated source text means what the expression means** — partial. proved for every nesting of the nodes, with the text as a sequence of C++ tokens read by a recursive-descent reader with the C++ precedence, for exact arithmetic, constants that survive %g and function nodes whose in-memory meaning is that of the C++ function; refuted for constants with more than six digits and for fmod
Theorems: `C20_text_partial`, `C20_unambiguous`, `C20_digits_refuted`, `C20_fmod_refuted`.

**C21 Typed expressions parse with the documented precedence** — proved. proved for the grammar of the documented precedence (one level per operator, functions of a bracket or a name), for arbitrary operations; also for the usual grammar when the operations satisfy a*b/c = a*(b/c) and a+b-c = a+(b-c); braces not modelled
Theorems: `C21_documented`, `C21_conventional`, `C21_unambiguous`.

**C22 Normal ordering preserves the value** — partial. Proved that Simplify always returns and keeps the value (wherever the value is defined) for (a) sums, products and quotients of constants, parameters, functions, conditions and sub-expressions when constants are printed exactly and no divisor contains a quotient, and (b) polynomials whose coefficients are arbitrary and whose function arguments contain only exactly printed constants. Exact arithmetic; expandSubTrees off; sorts are arbitrary permutations. Refuted in general: powers and other binary nodes in a product are dropped, and terms whose texts agree to six digits are merged.
Theorems: `C22_exact_text_partial`, `C22_polynomial_partial`, `C22_power_refuted`, `C22_digits_refuted`, `C22_divisor_refuted`.

**C23 Common sub-expressions are defined before use, once, and completely** — partial. Proved for every nesting and sharing with one node per inner expression and no key collision, including termination. Refuted: two nodes with different keys around one inner expression leave a key undefined.
Theorems: `C23_order_partial`, `C23_two_wrappers_refuted`.

**C24 Cached parameters and functions occupy disjoint storage** — partial. Proved: one range per name, disjoint, within the total; own cell for each function object. Partial: the range has the size asked for only when sizes depend on the name; refuted for a spline named like a parameter.
Theorems: `C24_ranges`, `C24_sizes_partial`, `C24_function_objects`, `C24_spline_refuted`.

**C25 Derivatives of unary functions are the mathematical derivatives** — partial. Proved over the real numbers (Coq's Reals, whose axioms Print Assumptions lists) for log, sqrt, exp, sin, cos, tan, atan, rsqrt and imag at every interior point of the domain; the tests against 0 and 1 are taken as exact. Refuted for asin and acos (wrong sign) and for abs, norm, real and conj (0). LGamma not treated.
Theorems: `C25_derivative_partial`, `C25_arcsine_refuted`, `C25_zero_refuted`.

**C26 Tensor indexing is a bijection** — proved. Both functions for every list of dimensions; the product of the dimensions is assumed to fit the unsigned type.
Theorems: `C26_bijection`.

**C27 Indexed tensor products follow the summation convention** — partial. Every pair of indexed tensors over a commutative ring with at least one index each, no index twice on one tensor and equal dimensions of repeated indices. A factor without indices is undefined behaviour (refuted theorem).
Theorems: `C27_product_partial`, `C27_scalar_refuted`.

**C28 The Levi-Civita tensor is totally antisymmetric** — partial. Ranks 1 to 7; from rank 8 the int product overflows (refuted theorem). std::next_permutation is taken by its contract.
Theorems: `C28_antisymmetric_partial`, `C28_overflow_refuted`.

**C29 Matrix inversion inverts** — partial. Every size and every matrix over a field without a zero pivot, and every matrix with regular leading blocks. A tensor on which a symmetry was imposed is inverted wrongly (refuted theorem). Exact arithmetic; make_cse is the identity on values.
Theorems: `C29_inverse`, `C29_leading_blocks`, `C29_symmetrised_refuted`.

**C30 Stored values are independent cells** — partial. Every history of calls in both layouts, every order of the events in update; below 2^32 events. Resizing a filled store and 2^32 events or more are refuted.
Theorems: `C30_cells`, `C30_events_partial`, `C30_many_events_refuted`, `C30_update`, `C30_resize_partial`, `C30_resize_refuted`.

**C31 Each cached function owns its fields** — partial. Every registration sequence on a store that starts without fields; the single-function constructor and clear() leave fields without owner (refuted theorem). Ratio of sizes rounded down as in the code.
Theorems: `C31_blocks_partial`, `C31_orphan_fields_refuted`.

**C32 Cached amplitudes are never stale** — partial. proved for every history of parameter changes, data-set changes, resets and prepare calls, with elements of different names and data sets not changed in place; two findings (same decay descriptor twice; data set changed in place). Scalar build, exact values.
Theorems: `C32_cache_partial`, `C32_same_name_refuted`, `C32_in_place_refuted`.

**C33 The normalisation is the average of the probability density** — partial. proved over the real numbers on the state reached by every history; floating-point rounding not modelled; elements have different names
Theorems: `C33_norm_partial`.

**C34 Queued integrals are each computed exactly once** — proved. proved for every list of requests and every batch size
Theorems: `C34_queue`.

**C35 Fit fractions and interference fractions sum to one** — proved. proved over the real numbers for every partition of the normalisation set into groups
Theorems: `C35_sum`.

**C36 Thread-pool tasks run exactly once** — partial. proved for every number of workers but zero, every number of callers and every schedule, including spurious wake-ups; tasks that use the pool themselves and the unlocked write of m_stop are not modelled; findings: no workers, use after waitForStoppedThreads, disabled pool
Theorems: `C36_once_partial`, `C36_live_partial`, `C36_no_worker_refuted`, `C36_after_wait_refuted`, `C36_disabled_refuted`.

**C37 Adaptive binning partitions the phase space** — partial. Total, numbered and minimum kept for any sample of at least two events; bins agree with the training when no two events share a coordinate. Refuted for ties, for samples of fewer than two events and for the EventList + ArgumentPack constructor. The two-sample division agrees always. Arithmetic exact on rationals; order of ties in std::sort and the coordinate order by variance are arbitrary.
Theorems: `C37_partition_partial`, `C37_two_samples`, `C37_ties_refuted`, `C37_small_sample_refuted`, `C37_constructor_refuted`.

**C38 Binnings survive serialisation** — partial. Full for voxel and bin numbers of every point. The order of nodes() is not preserved (finding). Printing and reading of single numbers is assumed to round trip (17 digits).
Theorems: `C38_round_trip`, `C38_node_order_refuted`.

**C39 Flat decision trees agree with their training partition** — partial. Two-sample training proved for all samples; one-sample training when no coincidences. Refuted for a median equal to the mean, for samples too small to divide and for Strategy::best.
Theorems: `C39_training_partial`, `C39_two_samples`, `C39_median_refuted`, `C39_small_sample_refuted`, `C39_best_refuted`.

**C40 The integral of an event list is the sum of weights** — partial. whole weights within int proved exact and the loss bounded for weights >= 0; the claim itself is false: partial sums are cut to integers, so fractional weights sum to 0
Theorems: `C40_whole_weights_partial`, `C40_loss_partial`, `C40_fractions_refuted`.

**C41 Events know their position** — partial. holds for every history of insertions, appends of other lists, resizes, clears and transforms; erase and filter leave stale indices, self-append is out of range, resize wipes the events (refuted)
Theorems: `C41_positions_partial`, `C41_contents`, `C41_removal_refuted`, `C41_self_append_refuted`, `C41_resize_refuted`.

**C42 Event branches map to distinct slots** — partial. proved with the energy in the format and names that do not clash with extensions; without the energy the decay time and the last energy are outside the event, resize leaves no room for the decay time, extensions are not counted by eventSize (refuted). The alternative naming is covered only when the stubs are by position.
Theorems: `C42_slots_partial`, `C42_no_energy_refuted`, `C42_decay_time_refuted`, `C42_resize_refuted`, `C42_extension_refuted`, `C42_name_clash_refuted`.

**C43 Automatic ordering permutes events into the declared order** — partial. proved when the ids are those declared, or their opposites with at least one id not declared, or neither; with other multiplicities the address 999 is used (refuted for all such ids)
Theorems: `C43_same_particles`, `C43_conjugate_partial`, `C43_mismatch`, `C43_multiplicity_refuted`, `C43_too_many_refuted`.

**C44 Reordering momenta preserves invariants** — proved. over any commutative ring; rounding of doubles is not modelled
Theorems: `C44_swap`, `C44_reorder`, `C44_masses`, `C44_invariance`.

**C45 Generation yields the requested number of accepted events** — partial. densities are rationals; NaN values are not modelled. The bound is taken from the first block (refuted that it bounds later trials); with TreePhaseSpace the stored density is that of event 0 (refuted)
Theorems: `C45_generation`, `C45_bound_refuted`, `C45_index_refuted`.

**C46 Phase-space events conserve four-momentum and are on shell** — partial. PhaseSpace::makeEvent over the real numbers. Events conserve momentum and are on shell, weights are bounded, the loop is live; refutations at and below threshold, for one particle and for more than kMAXP particles. Floating-point rounding is not modelled.
Theorems: `C46_event`, `C46_safe`, `C46_weight`, `C46_live`, `C46_two_bodies`, `C46_threshold_refuted`, `C46_below_threshold_refuted`, `C46_one_particle_refuted`, `C46_many_particles_refuted`.

**C47 Decay-chain phase space respects the chain kinematics** — partial. DecayChainStack and TreePhaseSpace over the real numbers, for any decay chain. Accept-reject is exact for one chain (C47_accept_partial); with several chains the ceiling is the minimum (C47_ceiling_refuted). Missing for the full statement: a correct ceiling, and the random number generator of the vector constructor.
Theorems: `C47_safe`, `C47_state`, `C47_quasi_stable`, `C47_weight`, `C47_sampling`, `C47_boost`, `C47_accept_partial`, `C47_ceiling_refuted`, `C47_ceiling_is_minimum`, `C47_random`, `C47_random_refuted`.

**C48 Discrete sampling has the requested probabilities** — partial. exact arithmetic over the reals; weights not negative with a positive sum. A zero sum gives NaN probabilities (modelled as None). Proved: the part of [0,1) where an index is drawn has exactly the length weight/sum; an empty distribution and the default constructed one are refuted.
Theorems: `C48_length`, `C48_probabilities`, `C48_empty_refuted`, `C48_default_refuted`.

**C49 Compensated summation equals the sum in exact arithmetic and keeps the lost part** — partial. any precision and smallest exponent, rounding to nearest with symmetric ties; no overflow. Refuted for operator+ read with operator(): the correction has the wrong sign.
Theorems: `C49_exact`, `C49_lost`, `C49_total`, `C49_klein`, `C49_plus_refuted`.

**C50 Quark content is additive and charge conjugation an involution** — partial. the numbers are unbounded integers (int overflow not modelled); characters in the C locale. Refuted: isWeakDecay is true for every resonance; comparison is not transitive; in-place addition of an object to itself empties it.
Theorems: `C50_sum`, `C50_anti`, `C50_read_state`, `C50_read`, `C50_equal`, `C50_strong`, `C50_weak`, `C50_weak_refuted`, `C50_transitive_refuted`, `C50_self_refuted`.

**C51 Particle and antiparticle are mutual conjugates** — partial. masses, widths and other words take no part and are kept as text; the fields are read by strtol for numbers that fit. Proved for files in which every line has an id of its own; the order only among particles that all have, or all lack, an id. Refuted otherwise, with lines of options/mass_width.csv as witnesses.
Theorems: `C51_anti`, `C51_names`, `C51_table`, `C51_conjugation`, `C51_names_refuted`, `C51_conjugation_refuted`, `C51_added`, `C51_added_refuted`, `C51_alias`, `C51_alias_refuted`, `C51_odd`, `C51_odd_refuted`, `C51_order_partial`, `C51_order_refuted`.

**C52 Printed spin denotes the spin** — partial. proved for integer spins; every half-integer spin is printed wrongly (C52_J_half, C52_J_refuted).
Theorems: `C52_read`, `C52_J_partial`, `C52_J_half`, `C52_J_refuted`, `C52_polarisations_partial`, `C52_polarisations_other`, `C52_polarisations_refuted`.

**C53 Daughter ordering is a strict weak order** — partial. The comparison of daughters is a strict weak order, and sorting canonical, where no particle meets its antiparticle with the lower charge and ties are alike; both restrictions are needed (refutations: a cycle among Delta(1232) states, daughters differing only in modifiers).
Theorems: `C53_order_partial`, `C53_order_refuted`, `C53_greater_refuted`, `C53_greater`, `C53_unique`, `C53_canonical_partial`, `C53_canonical_refuted`, `C53_keeps`, `C53_conjugate`.

**C54 Allowed spin-orbit couplings are the angular-momentum triangle** — partial. The list of couplings is exactly the set allowed by angular momentum (and parity) conservation for decays that conserve statistics; for others half-integer L is listed (refutation).
Theorems: `C54_couplings`, `C54_range`, `C54_range_parity`, `C54_statistics_refuted`, `C54_arity`.

**C55 Decay descriptors round-trip** — partial. Reading, printing and re-reading trees of any depth; validity check exact on trees; refutations list malformed texts that pass the check and modifiers lost in printing. Daughters are not re-sorted in this model (C53).
Theorems: `C55_read`, `C55_roundtrip`, `C55_odd`, `C55_balanced`, `C55_valid`, `C55_valid_refuted`, `C55_trailing_refuted`, `C55_empty_refuted`, `C55_vertex_refuted`, `C55_swave_refuted`, `C55_orbital_refuted`, `C55_comma_refuted`.

**C56 Clebsch-Gordan coefficients obey the selection rules** — partial. Real arithmetic; spins doubled integers. Zero for projections a spin does not have fails (C56_projection_refuted), so the symmetries are stated for the projections that exist.
Theorems: `C56_selection`, `C56_spin0`, `C56_exchange`, `C56_permute`, `C56_projection_refuted`.

**C57 Cascade rules combine each coupling exactly once per decay** — partial. Modifiers kept as written; for rule sets as in the hypotheses. Identical decaying daughters, names contained in others and modifiers on decaying particles are findings.
Theorems: `C57_expand`, `C57_product`, `C57_polar`, `C57_matching`, `C57_identical_refuted`, `C57_contained_refuted`, `C57_modifiers_refuted`, `C57_lost_refuted`, `C57_extra_refuted`.

**C58 Generated symbol names are identifiers and distinct** — partial. Character classes of the C locale; distinctness for words that can be told apart by their symbols, otherwise findings.
Theorems: `C58_identifier`, `C58_idempotent`, `C58_distinct`, `C58_keyword_refuted`, `C58_empty_refuted`, `C58_distinct_refuted`, `C58_sign_refuted`, `C58_companion_refuted`.

**C59 Linear error propagation is a quadratic form and restores parameters** — partial. Real numbers with NaN; matrix inversion is a hypothesis (right inverse).
Theorems: `C59_merge`, `C59_diagonal`, `C59_reset`, `C59_restores`, `C59_linear`, `C59_scale`, `C59_vector`, `C59_covariance`, `C59_correlation`, `C59_weights`, `C59_reset_refuted`, `C59_stale_refuted`, `C59_zero_refuted`, `C59_objects_refuted`.

**C60 swapChars is an involution** — proved. 
Theorems: `C60_swapChars_involutive`.

**C61 Reading an options file terminates** — partial. Terminates when the import relation has a rank; a self-importing file never terminates.
Theorems: `C61_import_terminates_partial`, `C61_delivered`, `C61_self_import_refuted`.

**C62 Redeclaring a parameter in the options overrides it** — partial. The findable parameter of a name is the last declaration; refuted: every redeclaration adds another floating parameter of the same name.
Theorems: `C62_last_declaration_partial`, `C62_override_refuted`.

**C63 Options written after a fit reload the same parameters** — partial. proved for real parameters with both limits zero or both non-zero; refuted for one limit zero, complex parameters of which one component is limited, and names with _Re inside.
Theorems: `C63_options_partial`, `C63_limit_refuted`, `C63_complex_refuted`, `C63_name_refuted`.

**C64 Covariances are found under the parameters they belong to** — proved. 
Theorems: `C64_by_name`, `C64_reduced`.

**C65 Named parameters take the given values or the default** — partial. proved for readable values and for absent lines; refuted for unreadable values, which become the empty value instead of the default.
Theorems: `C65_given_partial`, `C65_default_partial`, `C65_unreadable_refuted`.

**C66 Numbered options are all collected** — partial. proved when the default is the empty value and no value is empty; refuted otherwise (spurious default at the end, early stop, dropped values).
Theorems: `C66_numbered_partial`, `C66_default_refuted`, `C66_early_refuted`, `C66_dropped_refuted`.

**C67 Every expression text is read or rejected** — partial. termination proved; refuted: prefix signs and empty brackets are undefined behaviour, unbracketed functions compose in the wrong order, a missing operator drops operands
Theorems: `C67_returns_partial`, `C67_sign_refuted`, `C67_compose_refuted`, `C67_missing_operator_refuted`, `C67_empty_refuted`.

**C68 Symmetrising exchanges only identical particles, without bias** — proved. the generator of the draws is any sequence with draw k <= k
Theorems: `C68_identical_only`, `C68_every_arrangement`, `C68_unbiased`.

**C69 Spin couplings are orthonormal** — proved. Real arithmetic. Together with C69_raising and C69_sign the orthonormality fixes the coefficients in the convention of Condon and Shortley.
Theorems: `C69_orthonormal`, `C69_projections`, `C69_recoupling`, `C69_raising`, `C69_sign`.

**C70 wigner_d gives the matrix of a rotation** — proved. Doubled spins, projections and angles between 0 and pi; square roots of cos^2(a/2) are taken as non-negative. The function is defined for the spins wigner_d accepts; outside the projections of the spin the factorial under the root is zero or negative and the model's value is None.
Theorems: `C70_rotation`, `C70_orthonormal`, `C70_compose`, `C70_identity`, `C70_transpose`, `C70_outside`.

**C71 Splines are natural cubic splines** — partial. Real numbers; the inverse computed by GSL is taken to be an inverse (it exists for every size, C71_invertible). C71_left_refuted: at and below the first knot the value is that of the last knot. C71_digits_refuted: with constants printed to six digits the value next to a knot can be that of the next knot.
Theorems: `C71_natural`, `C71_unique`, `C71_invertible`, `C71_knots`, `C71_smooth`, `C71_left_refuted`, `C71_digits_refuted`.

**C72 Boosts, turns and decay angles are what their names say** — proved. Real numbers instead of doubles. ROOT's TVector3 and TLorentzVector are modelled as far as used; a vanishing denominator is an error outcome.
Theorems: `C72_boost`, `C72_boost_back`, `C72_rotate`, `C72_rotate_sum`, `C72_masses`, `C72_rest`, `C72_helicity`, `C72_transfer`, `C72_phi`, `C72_phi_rotate`, `C72_acoplanarity`, `C72_basis`.

**C73 Boosts and rotations act alike on momenta, spinors and bispinors** — partial. Proved for every sequence; false for spinors passed through a sequence without transforms, whose cached matrix is that of four dimensions, and for particles slower than the threshold of the rest frame transform, which are boosted along the wrong axis.
Theorems: `C73_acts_partial`, `C73_order`, `C73_inverse`, `C73_rotate`, `C73_boost`, `C73_lorentz`, `C73_spinor_partial`, `C73_bispinor`, `C73_gamma`, `C73_rest_partial`, `C73_empty_refuted`, `C73_rest_refuted`.

**C74 Adaptive integration** — partial. Proved for every function, box and dimension from 2 to 15, over the real numbers; the scalar variant of the rule. Two findings: in one dimension a function of a number gives zero, and beyond fifteen dimensions the tables of weights are read past their end.
Theorems: `C74_adaptive`, `C74_tiles`, `C74_exact`, `C74_rule`, `C74_table`, `C74_one_refuted`, `C74_dim_refuted`.

**C75 Barrier factors and running widths** — partial. The barrier factors of BL and of the form factors for L up to 3 are exact; for L = 4 the numerator is wrong (C75_barrier_refuted) and the copy in CoupledChannel.cpp has 3*z*9 for 3*z + 9 (C75_copy_refuted); the documentation of BL says that it is normalised at the mass, which only holds for L = 0 (C75_BL_refuted).
Theorems: `C75_momentum`, `C75_threshold`, `C75_barrier_one`, `C75_barrier_partial`, `C75_barrier_refuted`, `C75_falls_partial`, `C75_BL`, `C75_belle`, `C75_BL_refuted`, `C75_copy_partial`, `C75_copy_refuted`, `C75_width_partial`, `C75_width_pole`, `C75_width_sign`, `C75_pol`.

**C76 Breit-Wigner shapes** — partial. Complete but for two findings: the phase of the nonrelativistic Breit-Wigner falls (C76_phase_refuted), and the a(0)(980)+ has no width as the Flatte shape compares names exactly (C76_flatte_refuted).
Theorems: `C76_normalised`, `C76_cauchy`, `C76_elastic`, `C76_peak`, `C76_phase`, `C76_phase_refuted`, `C76_gounaris`, `C76_gounaris_peak`, `C76_flatte`, `C76_flatte_refuted`.

**C77 K matrices are unitary** — partial. Unitarity is proved for any number of channels and poles; it fails for the kMatrix shape itself, which gives its poles a small imaginary part of the wrong sign for that (C77_imaginary_refuted). The phase space that leaves out the difference of the masses is right for equal masses only (C77_phsp_twoBody), and the background of the production vector is right for one pole only (C77_pvec).
Theorems: `C77_propagator`, `C77_unitary`, `C77_poles`, `C77_one_pole`, `C77_width`, `C77_imaginary_refuted`, `C77_two_channel`, `C77_focus`, `C77_palano`, `C77_closed`, `C77_phase_space`, `C77_phsp_twoBody_partial`, `C77_phsp_twoBody_refuted`, `C77_pvec_count`, `C77_pvec_partial`, `C77_pvec_refuted`.

**C78 S-wave shapes are elastic** — partial. GLASS is the documented shape when phi_R vanishes and the phases are in radians; C78_glass has the formula of the code for all phases, and the two refutations show where it differs from the documentation.
Theorems: `C78_lass`, `C78_lass_phase`, `C78_glass`, `C78_glass_partial`, `C78_glass_refuted`, `C78_glass_degrees_refuted`, `C78_isotensor`, `C78_inelastic`.

**C79 Orbital tensors and spin projectors** — proved. Expressions stand for the complex numbers they evaluate to; dividing by the square of the momentum needs it nonzero.
Theorems: `C79_pwave`, `C79_rest`, `C79_spin1`, `C79_spin2`, `C79_covariant`.

**C80 Vertices of bosons conserve spin and turn with the frame** — partial. C80_scalar_refuted: V_TS_D omits the scalar factor. C80_gauge_refuted: S_TV_rm depends on the gauge of the photon. C80_gauge_partial covers the other three radiative vertices.
Theorems: `C80_spin`, `C80_covariant`, `C80_exchange`, `C80_scalar`, `C80_scalar_refuted`, `C80_gauge_partial`, `C80_gauge_refuted`, `C80_helicity`.

**C81 Vertices of fermions solve the Dirac equation and turn with the frame** — partial. Refuted: two antiparticle vertices use the particle projector (C81_antiparticle_refuted), V_fF_S1 is not transverse (C81_axial_refuted), six vertices omit the scalar factor (C81_scalar_refuted), four read the wrong tensor out of bounds (C81_chiral_refuted). The partial theorems cover the remaining vertices.
Theorems: `C81_projectors`, `C81_dirac`, `C81_dirac_anti_partial`, `C81_antiparticle_refuted`, `C81_spin3h`, `C81_currents_partial`, `C81_axial_refuted`, `C81_covariant`, `C81_currents_covariant`, `C81_maps`, `C81_scalar_partial`, `C81_scalar_refuted`, `C81_chiral_refuted`.

**C82 Padé approximations interpolate** — partial. Interpolation and exactness are proved for whatever solution the solver returns; refuted: a constant, or any ratio of lower order, makes the matrix singular.
Theorems: `C82_interpolates`, `C82_exact`, `C82_degenerate_refuted`.

**C83 The polarised sum is normalised** — partial. Without polFrac, and with it for a spinless particle, the norm is the average density; with spin and polFrac it is not, and the components ignore polFrac (refuted, two findings).
Theorems: `C83_norm_partial`, `C83_polfrac_partial`, `C83_polfrac_refuted`, `C83_components_partial`, `C83_components_refuted`.

**C84 Density matrices of spin** — partial. Spin 1/2 is right in every direction, spin 1 along z; the transverse factor of spin 1 is sqrt(3/8) where 3/sqrt(8) is needed, spin 3/2 has 4 states but one polarisation, and FCN_extPol reads beyond the parameters (refuted).
Theorems: `C84_combinations`, `C84_dim_partial`, `C84_dim_refuted`, `C84_hermitian`, `C84_half`, `C84_one_partial`, `C84_one_refuted`, `C84_external_refuted`.

**C85 An incoherent sum is a normalised density** — partial. Density, norm() and the fractions after prepare() are right for every history. The density is not normalised: prepare() uses the norm of the coherent sum (C85_normalised_refuted), proved is the ratio; fit fractions use stale integrals when a parameter of an amplitude changed since prepare() (C85_fractions_refuted).
Theorems: `C85_density`, `C85_norm`, `C85_fractions`, `C85_normalised_partial`, `C85_normalised_refuted`, `C85_fractions_refuted`.

**C86 A fit minimises minus twice the log-likelihood** — partial. Likelihoods, simultaneous fits and Gaussian constraints are right. LASSO and PartialWidthConstraint have the wrong sign (C86_lasso_refuted, C86_width_refuted), the latter also counts only half of the interference (C86_width_partial, C86_interference_refuted), and the reported value leaves out the constraints (C86_reported_refuted). Exact arithmetic.
Theorems: `C86_likelihood`, `C86_simultaneous`, `C86_constrained_partial`, `C86_lasso_refuted`, `C86_width_refuted`, `C86_width_partial`, `C86_interference_refuted`, `C86_reported_refuted`.

**C87 A fit leaves the parameters at the minimum** — partial. doFit, minos(), scan and gradientTest restore what they should. With Minimiser::RunMinos the parameters stay at the last point that was tried (C87_run_minos_refuted; C87_run_minos_partial says what holds); a scan with a step that is not positive never ends.
Theorems: `C87_fit`, `C87_run_minos_partial`, `C87_run_minos_refuted`, `C87_minos`, `C87_scan`, `C87_scan_ends`, `C87_scan_refuted`, `C87_gradient`.

**C88 Amplitudes are symmetric under exchange of identical particles** — partial. Proved for bosons, and for fermions when there are no three of a kind (C88_fermions); with three the signs of cyclic exchanges are wrong (C88_three_fermions_refuted). Polarisations are not exchanged with the momenta (C88_polarisations_refuted), and the indices are left as in the last arrangement (C88_indices_left_refuted). The tree is given by its stable particles and arbitrary functions of their momenta and polarisations.
Theorems: `C88_indices`, `C88_orderings`, `C88_value`, `C88_distinct`, `C88_bosons`, `C88_fermions`, `C88_incoherent`, `C88_again`, `C88_indices_left_refuted`, `C88_three_fermions_refuted`, `C88_polarisations_refuted`, `C88_states`.

**C89 Helicity amplitudes of a decay chain** — partial. Exact arithmetic. Boosts and rotations between frames (C73), the overlap of a stable particle with its laboratory polarisation, and user-defined helicity couplings are inputs. An L that cannot be reached, a decay along the axis, and a stable particle with a spin above one give no number; keys of frames are shared when there are ten particles or more.
Theorems: `C89_amplitudes`, `C89_isotropic`, `C89_waves`, `C89_least_spin`, `C89_impossible_refuted`, `C89_axis_refuted`, `C89_higher_spin_refuted`, `C89_keys_partial`, `C89_keys_refuted`.

**C90 The chi2 of a binned comparison of data and simulation** — partial. Exact arithmetic; the bin of an event is an input (C37). A bin without events makes the value not a number; an event without a bin is undefined behaviour.
Theorems: `C90_value`, `C90_zero`, `C90_order`, `C90_scale`, `C90_empty_bin_refuted`, `C90_outside_refuted`.

**C91 Generation of a decay in steps gives consistent events** — partial. Proved for momenta in which no decaying particle is exactly at rest in the frame of its mother; refuted for one at rest (the direction of the boost is 0/0) and for decays with more particles of a name than the event type (two particles share a place). That the momenta of each step add up and have their masses is C46. The PhaseSpace made for a stable particle has no masses and m_mass[0] is never set; nothing reads it.
Theorems: `C91_places`, `C91_event`, `C91_at_rest_refuted`, `C91_shared_place_refuted`.

**C92 The running width of a three-body decay** — partial. Proved for heads of integer spin, at least two knots and a width at the mass that is not 0. Refuted: half-integer heads (every knot 0/0), 999 knots (step not set), widthGraph with limits (starts elsewhere), runningMass (constant). Partial widths are arbitrary functions here; the integral is C93.
Theorems: `C92_average`, `C92_knots`, `C92_unit`, `C92_scale`, `C92_half_integer_refuted`, `C92_knots_999_refuted`, `C92_graph_refuted`, `C92_running_mass_refuted`.

**C93 The square Dalitz plot covers the Dalitz plot with the right measure** — partial. Proved for open decays in which A and B are not both massless (then the mass of AB is never 0); the second coordinate is given back inside, where A and C have momenta. Refuted for integrateDP with a mass other than that of setMother. The entries that setEvent does not write are taken to be zero. makePlot and makeBoundaryGraph are not modelled; that the numerical rule is exact for low degrees is C74.
Theorems: `C93_event`, `C93_coordinates`, `C93_all_reached`, `C93_jacobian`, `C93_integrand`, `C93_other_mass_refuted`.

**C94 External states are complete sets of spin states** — partial. Proved for momenta on the mass shell; in the Weyl basis away from the negative third axis (spinors) and outside the 1 MeV tube around the axis, or exactly on it (vectors). Refuted: spinors along the negative axis do not solve the Dirac equation, vectors there carry the opposite helicity, vectors close to the axis are not normalised, invalid states are accepted, spin 2 has no states, states of off-shell particles are not transverse, labels of antiparticles mean the opposite spin.
Theorems: `C94_vectors`, `C94_helicity_vectors`, `C94_spinors`, `C94_helicity_spinors`, `C94_conjugate`, `C94_basis`, `C94_photon`, `C94_states`, `C94_no_state`, `C94_backwards_refuted`, `C94_backwards_vector_refuted`, `C94_near_axis_refuted`, `C94_invalid_refuted`, `C94_tensor_refuted`, `C94_off_shell_refuted`, `C94_antiparticle_refuted`.

**C95 Decays are compared by what distinguishes them** — partial. proved for the comparison as it is; refuted: different daughters give a flag among others and not None alone, and line shapes, vertices and spin configurations are not compared, so that the K-matrix can take one channel for another.
Theorems: `C95_exact`, `C95_flags`, `C95_symmetric`, `C95_channel`, `C95_mismatch_refuted`, `C95_shape_refuted`.

**C96 A clone of a decay shares nothing with it, and expanding puts a decay where a particle was** — partial. proved for clone and for expand on decays none of whose particles is shared; refuted: a copy shares its daughters, the descriptor is stale after expand, and two particles expanded with one decay share its products.
Theorems: `C96_clone`, `C96_independent`, `C96_expand`, `C96_copy_refuted`, `C96_descriptor_refuted`, `C96_shared_refuted`.

**C97 The quasi-stable tree keeps the final state and only the particles that live long** — partial. proved for the structure; refuted: the final state particles lose their indices, and a quasi-stable particle that is an only daughter is left out.
Theorems: `C97_quasi`, `C97_index_refuted`, `C97_only_refuted`.

**C98 Amplitudes under space inversion** — partial. Full for trees of the modelled vertices (regular: no three-body decay of spin 3 or half-integer spin, scalars in V_TS_D without sign) and plain terms; the excluded cases are refuted with witnesses.
Theorems: `C98_inversion`, `C98_term`, `C98_AMP`, `C98_spin3_refuted`, `C98_half_refuted`, `C98_bgspin0_refuted`, `C98_inco_refuted`, `C98_scalar_refuted`.

**C99 Conjugate parameters** — partial. Full; the refutations are parameters that are not couplings, prefixed couplings and couplings given by an expression.
Theorems: `C99_kept`, `C99_value`, `C99_coupling`, `C99_again`, `C99_unnamed_refuted`, `C99_twice_refuted`, `C99_prefix_refuted`, `C99_complex_refuted`, `C99_sign_refuted`.

**C100 Functions for plots** — partial. Full for distinct names; components are not scaled by weight/norm and equal names read beyond the storage (refuted).
Theorems: `C100_evaluator`, `C100_components`, `C100_sum`, `C100_scale_refuted`, `C100_name_refuted`.

**C101 Projections** — partial. Contents, components, stack and option order are proved for all inputs; refuted: binFunctor puts values up to one bin below the range into bin 0, AutoWrite(false) writes, and the normalisation to events counts only those in the range.
Theorems: `C101_contents`, `C101_components`, `C101_sorted`, `C101_stack`, `C101_order`, `C101_binFunctor_partial`, `C101_binFunctor_refuted`, `C101_autowrite_refuted`, `C101_range_refuted`.

**C102 Events in blocks** — partial. Conversion and random access are proved for all lists, loops and transform when the last block is not full, likelihood and averages for lists that are read and (exactly, with the repeated last event) for converted ones; refuted: the lanes behind the last event of a converted list carry its weight and count in the likelihood, a loop over a list that fills its last block reads behind the storage, reading fewer events than a block holds is undefined, and only the last of several files is kept.
Theorems: `C102_conversion`, `C102_loading_partial`, `C102_loading_refuted`, `C102_loop_partial`, `C102_loop_refuted`, `C102_transform_partial`, `C102_sums_loaded`, `C102_sums_converted`, `C102_sums_converted_partial`, `C102_sums_refuted`, `C102_files_refuted`.

**C103 Event types and their default projections cover the decay** — partial. Exact reals; the table of particles is a function from names to mass and name of the antiparticle. Not true, and refuted: that the names of the projections are unique (beyond ten particles "s012" is used twice), that equal event types have events of the same size (time dependence is not compared), that conjugation keeps the extensions, that an unknown mother or an empty list is reported by an exception.
Theorems: `C103_combinations`, `C103_projections`, `C103_names_partial`, `C103_names_refuted`, `C103_count`, `C103_equal`, `C103_equal_refuted`, `C103_conjugate`, `C103_conjugate_refuted`, `C103_construct_partial`, `C103_construct_refuted`.

**C104 The list of fit fractions covers every decay and adds up** — partial. Exact reals; errors are those of the propagator (C59) as an argument; printing left out. Not true, and refuted: that a single decay is listed (nothing is), that only decays of the prefix of the sum interfere (without prefix all decays of the mother do, one even with itself), that a particle's amplitudes are found by its name (Delta(1232)+ finds those of Delta(1232)++), that constraints on unknown components are refused (index 999).
Theorems: `C104_indices`, `C104_list`, `C104_sum_partial`, `C104_single_refuted`, `C104_prefix_refuted`, `C104_name_refuted`, `C104_component_partial`, `C104_component_refuted`.

**C105 Events written to a tree and read from one** — partial. Reading and writing are proved for all trees with the columns asked for. Refuted: a filter no entry passes reads all entries; a filter with an entry list is added to it; the reader looks past the end of an entry list; branches for all values of time-dependent events use addresses outside the event; the decay time is scaled with the energies; weights are lost by default; a column read to two places is not initialised.
Theorems: `C105_read`, `C105_four`, `C105_three`, `C105_entry_list_partial`, `C105_filter_partial`, `C105_write_read`, `C105_filter_refuted`, `C105_filter_and_list_refuted`, `C105_entry_list_refuted`, `C105_time_refuted`, `C105_units_refuted`, `C105_weight_refuted`, `C105_twice_refuted`.

**C106 Shapes of the remaining lineshapes** — partial. Poly, Gaussian and Bugg as stated. EtaDalitz: for the nominal mass and masses as light as those of the pions; otherwise refuted twice (another mass of the three particles; the distribution negative, where the shape is 1). PolyNR is the polynomial, not its root as documented (refuted).
Theorems: `C106_poly`, `C106_polyNR_partial`, `C106_polyNR_refuted`, `C106_gaussian`, `C106_eta_partial`, `C106_eta_mass_refuted`, `C106_eta_negative_refuted`, `C106_bugg_unitarity`, `C106_bugg_pole`, `C106_bugg_threshold`, `C106_bugg_four_pions`.

**C107 The propagator of a decay is the product of the lineshapes of its particles** — partial. C107_product, C107_two_body, C107_eta, C107_descriptor, C107_defined, C107_register. Refuted: with a default modifier a three-body decay loses the fixed width (C107_default_modifier_refuted); EtaDalitz with an unknown modifier uses a null pointer (C107_unknown_refuted); a single daughter with another shape reads a second daughter (C107_single_refuted).
Theorems: `C107_product`, `C107_two_body`, `C107_eta`, `C107_descriptor`, `C107_defined`, `C107_register`, `C107_default_modifier_refuted`, `C107_unknown_refuted`, `C107_single_refuted`.

**C108 Compiled amplitudes call their own code, also with a cache of objects** — partial. C108_cache_partial (missing: expressions with equal hash but other code, see the refutations), C108_new_file, C108_other_files, C108_file_names, C108_one_file, C108_not_null, C108_incomplete, C108_temporary. Refuted: stale objects after the code has changed, also with ForceRebuild in one process, or after a failure of the compiler; a function that a cached file lacks stays null in the process that writes the file again; two amplitudes with equal hash give an exception; two names with the same function name cannot be in one file.
Theorems: `C108_cache_partial`, `C108_new_file`, `C108_other_files`, `C108_file_names`, `C108_one_file`, `C108_not_null`, `C108_incomplete`, `C108_temporary`, `C108_stale_refuted`, `C108_force_refuted`, `C108_failure_refuted`, `C108_collision_refuted`, `C108_names_refuted`, `C108_incomplete_refuted`.

**C109 Terms of the likelihood are configured as their text says** — partial. C109_gaussian, C109_pdg, C109_find, C109_width, C109_lasso, C109_parameter, C109_missing. Refuted: texts with other words leave mean and width uninitialised (C109_words_refuted); the factory makes terms without an amplitude (C109_factory_refuted); PDG ignores what follows a second underscore (C109_pdg_name_refuted).
Theorems: `C109_gaussian`, `C109_pdg`, `C109_find`, `C109_width`, `C109_lasso`, `C109_parameter`, `C109_missing`, `C109_words_refuted`, `C109_factory_refuted`, `C109_pdg_name_refuted`.

**C110 Containers filled on demand and small vectors** — partial. False for blocks of different sizes (elements left out), for a second loop over the same container (starts with the last block), for constant iterators (operator precedence: the first block is given again) and for equality of small vectors of different sizes (trailing zeros).
Theorems: `C110_iterate`, `C110_empty`, `C110_small`, `C110_equal_partial`, `C110_uneven_refuted`, `C110_again_refuted`, `C110_const_refuted`, `C110_equal_refuted`.

**C111 Spin states at the ends of a helicity amplitude** — partial. The frame is any Lorentz transformation with an inverse that brings the particle to rest (or along the axis); that the code's sequences are such is the subject of the area Transform. False for couplings that are not given: the default is one number, and two more are read behind it.
Theorems: `C111_vector`, `C111_unitary`, `C111_complete`, `C111_photon`, `C111_spinor`, `C111_complete_spinor`, `C111_own`, `C111_axis`, `C111_couplings`, `C111_missing_refuted`.


## Findings (refuted statements)

* `C37_ties_refuted`: C37, finding. Events with equal coordinates: the sample is divided in the middle of its sorted order, the look-up compares with the cut. With two events at the same place and one event per bin, both fall into bin 1 and bin 0 stays empty, although one event was counted into it.
* `C37_small_sample_refuted`: C37, finding. A sample of one event, or none: the constructor compares the first event with the second one, which does not exist (nearestNeighbourVariance, BinDT.cpp:27), whatever the configuration.
* `C37_constructor_refuted`: C37, finding. The constructor that takes an EventList and an ArgumentPack drops the tree it makes (BinDT.cpp:102): no point has a bin, the first look-up dereferences null.
* `C38_node_order_refuted`: C38, finding. The list of end nodes is not preserved: makeNodes appends end node number i at place i, the reader appends them in the order of the file, where the upper branch comes first. After reading, nodes()[i] is not the node with voxel number i.
* `C39_median_refuted`: C39, finding. The look-up sends an event on the cut to the lower side, the training puts the median into the upper half. With the events 1, 2, 3 the cut is their mean, 2: the event 2 was put into the upper end node and is led to the lower one. No two events agree.
* `C39_small_sample_refuted`: C39, finding. A sample too small to be divided leaves the node array empty; every look-up then reads element -1 of it.
* `C39_best_refuted`: C39, finding. Strategy::best never works: after the loop over the coordinates the code dereferences the end iterator instead of the best one (FastDT.cpp:208), whatever the samples.
* `C47_ceiling_refuted`: TreePhaseSpace takes the smallest of the maximal weights of its chains as ceiling: std::max_element is called with the comparison a > b. Proposals of the other chains are accepted whenever their weight is above that ceiling, so events are not distributed as genPdf says.
* `C47_random_refuted`: A generator made from a vector of chains without a random number generator has a null pointer for it: its constructor chooses gRandom and then calls setRandom with the argument. The first makeEvent dereferences it.
* `C90_empty_bin_refuted`: A bin without events, as two data with one value give (C37), makes the chi2 a quotient of zeros even where the prediction is right in all other bins.
* `C90_outside_refuted`: A binning that was made for other data can have no bin for an event; the event is written outside the array.
* `C32_same_name_refuted`: Two elements with the same decay descriptor share one field of the cache, but are read from two: the amplitude of an event is computed with the amplitudes of the next event, and for the last event the read is outside the cache.
* `C32_in_place_refuted`: The data set is held by pointer: when its owner changes an event in place, the next prepare() keeps the old amplitudes; when its owner appends an event, the next prepare() that updates an amplitude writes outside the cache.
* `C99_unnamed_refuted`: A parameter whose name is none of these gives a parameter with an empty name.
* `C99_twice_refuted`: With such a parameter in the set, the next call reads the last of no tokens.
* `C99_prefix_refuted`: A coupling with a prefix, as AmplitudeRules reads it (prefix_decay_Re), is taken for a decay of the prefix, whose properties are not known.
* `C99_complex_refuted`: A coupling given by one complex expression loses its imaginary part: the conjugate of i is 0.
* `C99_sign_refuted`: Given by an expression, a coupling of a decay that is odd under CP keeps its sign; given by real and imaginary part it changes it.
* `C110_uneven_refuted`: Blocks of different sizes: elements are left out (here 1), since the place in the block is that of blocks of its own size (AmpGen/DynamicContainer.h:63, 42).
* `C110_again_refuted`: A second loop over the same container starts with the last block of the first, not with the first elements nor with new ones (AmpGen/DynamicContainer.h:60).
* `C110_const_refuted`: The increment of a constant iterator does not fetch the next block: m_pos + 1 % size is not what is meant, and the first block is given again (AmpGen/DynamicContainer.h:34).
* `C110_equal_refuted`: Vectors of different sizes are equal if the longer one has zeros at the end, as in the lists of final states of a decay chain, where zero is the first particle (AmpGen/SmallVector.h:32-35).
* `C54_statistics_refuted`: Decays that create or destroy a single half-integer spin: J = 1 from spins 1/2 and 0 is impossible, but (L,S) = (1,1/2) is listed, and the orbital range is not the empty one: the decay is not reported (line 229).
* `C93_other_mass_refuted`: integrateDP( fcn, s ) with another mass than that set by setMother: the energy of C is calculated from the member, so the events do not have the squared mass s (src/DalitzIntegrator.cpp:119, 144).
* `C55_valid_refuted`: Accepted as a descriptor though the braces do not match, only their numbers do: reading it dereferences the first of no matched braces (Utilities.cpp:167).
* `C55_trailing_refuted`: Text after the decay is ignored: a different particle tree is accepted and read as D0 to K- pi+.
* `C55_empty_refuted`: An empty daughter passes the check, since empty tokens are skipped, and then has no properties.
* `C55_vertex_refuted`: With a named vertex a given orbital angular momentum is not printed but replaced by the vertex name: the descriptor of D0[D;vertex=foo] is D0[foo;vertex=foo], which is read with the default orbital angular momentum.
* `C55_swave_refuted`: An explicit S wave is not distinguished from no specification: where the least orbital angular momentum is 1, the modifiers [S] and [P] and none give the same orbital angular momentum.
* `C55_orbital_refuted`: A spin configuration on a decay without any allowed orbital angular momentum (999, Particle.cpp:704-716) prints a letter from beyond the array of seven.
* `C55_comma_refuted`: A modifier with a comma breaks the descriptor: the daughters become the parts between commas.
* `C48_empty_refuted`: Without weights, index 0 is returned though there is nothing to choose from.
* `C48_default_refuted`: A default-constructed distribution has no buckets: drawing from it reads past the end of a vector.
* `C15_number_refuted`
* `C15_empty_refuted`
* `C59_reset_refuted`: A reset empties the list of parameters but keeps the size of the matrix: the next error reads past the end of the list.
* `C59_stale_refuted`: The covariance matrix of functions is left with each function last evaluated at a shifted parameter: a function that keeps the result of its last evaluation (an amplitude with its caches) stays there, though the parameter itself is put back.
* `C59_zero_refuted`: A parameter without error makes every error not-a-number, also for functions that do not depend on it.
* `C59_objects_refuted`: Parameters are merged by name: of two parameter objects of the same name only the first is varied, and what depends on the second has no error.
* `C100_scale_refuted`: The components are not the shares of what evaluator() gives: that is multiplied with the weight of the sum and divided by the normalisation, the components are not.
* `C100_name_refuted`: Two elements of the same name have one field, but the loops take field j for element j: reading beyond the storage.
* `C40_fractions_refuted`: EventList::integral() passes the integer 0 to std::accumulate, so every partial sum is cut to an integer: a list of weights between 0 and 1 (sWeights, efficiencies, normalised weights) always has integral 0, whatever its sum.
* `C41_removal_refuted`: erase and filter leave the remaining events with the indices they had: whatever is looked up by index afterwards (a cached amplitude) is that of another event, or outside the cache.
* `C41_self_append_refuted`: Appending a list that is not empty to itself runs past the end: the size of the source is read again after it has grown.
* `C41_resize_refuted`: resize replaces every event, also those that were there before: growing a list loses its contents.
* `C42_no_energy_refuted`: Without the energy in the format (EventType::IncludeEnergy = false) an event read from a tree has three numbers per particle, while the event accessors take four: the energy of the last particle is outside the event.
* `C42_decay_time_refuted`: Without the energy and with a decay time, the decay time is given the slot [4 n] of a format of [3 n + 1] entries, so it is outside the event that is read; and an extension can be given the same slot as the decay time.
* `C42_resize_refuted`: The events made by EventList::resize have no slot for the decay time of a time dependent type: Generator and PhaseSpace::fill write it one past the end.
* `C42_extension_refuted`: Extensions are not counted by eventSize(), nor by the events that are made: their slots are outside.
* `C42_name_clash_refuted`: An extension with the name of an existing branch moves that branch: its slot of the momentum is lost.
* `C43_multiplicity_refuted`: Only the presence of each id is checked, not how often it occurs. Whenever every id is a declared one but the multiplicities differ, the place 999 that marks "not assigned" is used as an address: a write far outside the event. This happens for the charge conjugate of a decay such as D+ -> pi+ pi+ pi-, with ids -211 -211 211.
* `C43_too_many_refuted`: More ids than declared particles: the table of used places is overrun.
* `C45_bound_refuted`: The bound is taken from the first block only: a trial of a later block can exceed it, and is then accepted whatever the random number, so the accepted sample does not follow the density (only a warning is printed).
* `C45_index_refuted`: A phase space other than PhaseSpace overwrites the events, so that all indices in a block are 0; a density that looks its amplitudes up by index (CoherentSum) then gives every accepted event the value of the first event of the block.
* `C19_tiny_refuted`: Adding a constant smaller than the machine epsilon is dropped, and so is a product with it, however large the other factor: 10^-17 x evaluates to 0 for x = 10^17.
* `C19_zero_over_zero_refuted`: The constant 0 divided by anything is 0, also where the divisor vanishes.
* `C25_arcsine_refuted`: The derivatives of arcsine and arccosine have the wrong sign: at 0 they give -1 and 1.
* `C25_zero_refuted`: The derivatives of the absolute value, the norm, the real part and the conjugate are 0.
* `C20_digits_refuted`: Constants are printed with six significant digits, so the text of 1.234567 reads 1.23457.
* `C20_fmod_refuted`: An fmod node evaluates to 0 in memory but its text calls fmod: fmod(5,3) is 2.
* `C22_power_refuted`: Normal ordering drops the powers (and the other binary nodes) of a term: pow(x,2)*y becomes y.
* `C22_digits_refuted`: Terms are merged when their texts agree, and constants are printed with six digits: real(1.2345678 x) - real(1.2345679 x) becomes 0.
* `C22_divisor_refuted`: A quotient as a divisor is turned over after its divisor has been put together again, and a sum that comes to stand in the numerator this way is dropped: x/(y/(x + 1)) becomes x/y.
* `C94_backwards_refuted`: A fermion that moves along the negative third axis is given the spinors of a fermion that moves along the positive one with the lower half of the one that moves along the negative one: they do not solve its Dirac equation.
* `C94_backwards_vector_refuted`: A vector that moves exactly along the negative third axis, or within 1 MeV of it, is given the state of helicity -1 for the label +1, although for directions close to it, but further away than that, the label +1 is the helicity.
* `C94_near_axis_refuted`: A vector whose momentum is within 1 MeV of the third axis, but not along it, has states that are not normalised in the Weyl basis.
* `C94_invalid_refuted`: States below minus the spin are not refused when they are set; and the bispinor of the Weyl basis is filled for any number, also for the 999 that marks an invalid state, and is then not a state of the particle.
* `C94_tensor_refuted`: Particles of spin 2 are said to have five states, but there is no spin tensor for any of them.
* `C94_off_shell_refuted`: The mass is the one of the table, not that of the momentum: a particle off its mass shell has states that are not transverse.
* `C94_antiparticle_refuted`: The label of a state means opposite spins for a particle and its antiparticle: the charge conjugate of the state +1 of a particle is not, whatever the phase, the state +1 of the antiparticle.
* `C86_lasso_refuted`: The LASSO penalty has the wrong sign: the minimiser subtracts twice each extended term, which is right for the logarithm of a density such as GaussianConstraint's, but LASSO returns a positive penalty, so that larger couplings are rewarded, without bound.
* `C86_width_refuted`: So has the constraint on a ratio of partial widths: the value is lower away from the ratio that is asked for than at it.
* `C86_interference_refuted`: Two equal amplitudes: their intensity is 4 times that of one of them; the constraint takes it for 3 times.
* `C86_reported_refuted`: The value reported for a fit, and the one that is scanned, is not that which was minimised: it leaves out the constraints. Of two points the one with the lower reported value can be the worse one.
* `C87_run_minos_refuted`: Minimiser::RunMinos: a fit whose minimum is at (2, 5) with errors of 1 leaves the second parameter at 6, one error away, since the function was last evaluated there; the result, fit fractions and plots that follow are made there.
* `C87_scan_refuted`: A scan with a step that is not positive never ends.
* `C17_options_refuted`: The options file written after a fit contains the true value of a blinded parameter.
* `C17_fixed_offset_refuted`: With an offset declared as a fixed parameter, the table after a fit prints the offset.
* `C17_no_offset_refuted`: A blinded parameter without an offset dereferences a null pointer.
* `C18_read_refuted`: No result with a parameter that is neither blinded nor an offset can be read back: the reader takes a seventh number of the six it has just read.
* `C63_limit_refuted`: A range from 0 to 4 is lost: the parameter comes back unlimited.
* `C63_complex_refuted`: A complex parameter of which only one component has limits is written as nine words, which declare nothing.
* `C63_name_refuted`: A name with "_Re" inside as well as at the end is not written at all.
* `C104_single_refuted`: With only one decay of the mother no fraction is given at all, where it is one: only the sum of no interference fractions, zero, remains.
* `C104_prefix_refuted`: Without a prefix, the decays of the same mother that have one are taken into the interference fractions although they have no amplitudes in this sum; if their names are the same, a decay "interferes" with itself, and the sum of fractions and interference exceeds one.
* `C104_name_refuted`: The amplitudes of a particle are found by its name as part of the descriptor, and Delta(1232)+ is part of Delta(1232)++: the only decay of Delta(1232)+ has a fraction of one half of the decays of Delta(1232)+.
* `C104_component_refuted`: A constraint on a component that does not exist is not refused: the number 999 stands for it, and the value of the constraint is read beyond the end of the amplitudes.
* `C89_impossible_refuted`: An L that cannot be reached is not refused: there is a message, and the amplitude is not a number.
* `C89_axis_refuted`: A decay along the axis has no azimuth; the amplitude is then not a number even where every rotation function is defined.
* `C89_higher_spin_refuted`: A stable particle with a spin above one: its first daughter is taken.
* `C89_keys_refuted`: With ten or more particles two different pairs have one key, and so one frame.
* `C85_normalised_refuted`: The density of an incoherent sum is not normalised: prepare() sets the normalisation by CoherentSum::updateNorms, whose call of norm() is that of CoherentSum, with the interference between the terms; IncoherentSum::norm() hides it and is not virtual. With two equal real amplitudes the density integrates to one half.
* `C85_fractions_refuted`: fitFractions transfers the couplings of the present parameters, but not the amplitudes: when a parameter of an amplitude has changed since the last prepare(), as in the variations from which their errors are computed, the fractions are those of the old amplitudes.
* `C74_one_refuted`: A function of a number, over an interval: the integral is computed but not returned; the result is zero.
* `C74_dim_refuted`: The tables of weights end at fifteen dimensions; for more they are read beyond their end.
* `C49_plus_refuted`: [operator+] keeps the correction with the opposite sign, but [operator()] adds it: 2^53 + 1, whose rounded sum is 2^53, is returned as 2^53 - 1, further from the exact sum than the plain addition. Adding 1 with [operator+=] and then 0 with [operator+] subtracts the lost 1 again.
* `C76_phase_refuted`: NonRelBW (src/Lineshapes/NonRelBW.cpp:18, AmpGen/Lineshapes.h:161) has sqrt(s) - m where the other shapes have m^2 - s: its phase falls from 180 to 0 degrees through the resonance. Next to a relativistic amplitude the interference is the wrong way round; the modulus is right.
* `C76_flatte_refuted`: Flatte (src/Lineshapes/Flatte.cpp:29, 42) compares the name with f(0)(980)0 and a(0)(980)0 only. For any other particle, such as a(0)(980)+, there is no message and no width: the amplitude is real, with a pole on the physical axis.
* `C75_barrier_refuted`: BlattWeisskopf_Norm for L = 4 (src/Lineshapes.cpp:35): the numerator has z where it should have z0. The default form factor of a G wave, which has z0 = 0, is wrong by a factor of the momentum: at z = 1 it is 20050/12746 instead of 11025/12746, that is larger than at threshold, and it falls like 1/z instead of 1/z^4.
* `C75_BL_refuted`: AmpGen/Lineshapes.h:134: the modifier BL is said to normalise the factors at sqrt(s) = m. They are normalised at momentum 1 / radius (src/Lineshapes/BW.cpp:70): at the mass the form factor of a P wave with momentum sqrt(5/4) and radius 2 is sqrt(5/3).
* `C75_copy_refuted`: src/Lineshapes/CoupledChannel.cpp:103 has 3*z * 9 for 3*z + 9. The D wave falls like z instead of z^2 towards threshold, and is at z = 1 13/28 instead of 1.
* `C77_imaginary_refuted`: With the imaginary part that the K matrix of the kMatrix shape adds to its poles, scattering creates probability: one channel below a pole at 1 already has |S| > 1.
* `C77_phsp_twoBody_refuted`: The two-body phase space of the kMatrix and PALANO shapes leaves out the difference of the two masses: for unequal masses it is not twice the momentum over the energy. (It is used for K pi, K eta' and eta eta'.)
* `C77_pvec_refuted`: The background of the production vector of the generic K matrix is counted once for the first pole, twice for the second, and so on, as its coefficient is accumulated within the loop over the poles: with two poles that do not couple at all it is three times what it is with one.
* `C78_glass_refuted`: The documentation has the resonant phase within the sine as well, and the code does not: with phi_R the opposite of the phase of the Breit-Wigner the documented resonance vanishes, and the one of the code does not.
* `C78_glass_degrees_refuted`: The documentation has both phases in degrees, and the code takes them in radians.
* `C12_duplicate_refuted`: A parameter whose name is taken is stored although the addition reports failure; it cannot be found.
* `C12_unregister_refuted`: A removed parameter is still found by name.
* `C12_double_delete_refuted`: Adding one object twice makes the destructor delete it twice.
* `C12_subscript_refuted`: Subscripting with a name that is not in the set reads past the end of the map.
* `C13_stale_index_refuted`: Setting the parameters one by one from the minimiser state also changes a parameter that was fixed since an earlier fit: its index is never cleared.
* `C14_number_flag_refuted`: An option with three numbers, say a binning "bins 17 5 1", becomes a parameter with a flag that does not exist.
* `C16_value_refuted`: The constructor without a flag reads its own uninitialised members, whatever its arguments.
* `C62_override_refuted`: A second declaration of a parameter makes two floating parameters of that name.
* `C65_unreadable_refuted`: With default true, the value "yes" is reported as unreadable and the parameter becomes false, not the default.
* `C66_default_refuted`: With a default other than the empty value, the default is delivered as an additional value.
* `C66_early_refuted`: A given value equal to the default ends the list: the options after it are ignored.
* `C66_dropped_refuted`: A given value equal to the empty value is left out.
* `C108_stale_refuted`: A directory with compiled objects is used again though the code of an amplitude has changed (the file is found by the name of the amplitude alone): the old code is called (src/CompilerWrapper.cpp:93-96, src/CompiledExpressionBase.cpp:71).
* `C108_force_refuted`: Nor does ForceRebuild help within one process: the new library is written, but the one of the same name that is loaded is given again (src/CompilerWrapper.cpp:99-101).
* `C108_failure_refuted`: If the compiler fails, the library of an earlier run is linked and the result is true (src/CompilerWrapper.cpp:100-105, 201).
* `C108_collision_refuted`: Two different amplitudes with the same hash of 32 bits: the second finds the library of the first, and the program stops with an exception instead of compiling it (src/CompilerWrapper.cpp:96, AmpGen/CompiledExpression.h:187).
* `C108_names_refuted`: Two names that differ only in characters that are replaced have the same function name, so a file with both is not accepted (src/CompiledExpressionBase.cpp:36-46).
* `C108_incomplete_refuted`: Written again, but the function that was missing stays null in this process, since the file is loaded already (src/CompilerWrapper.cpp:96-103).
* `C09_glued_comment_refuted`: A comment that starts right after a word swallows the word.
* `C10_ordered_duplicate_refuted`: An overridden option is listed twice.
* `C11_open_block_refuted`: A block left open at the end of the file is dropped without a message.
* `C11_stray_brace_refuted`: A stray closing brace swallows the rest of the file.
* `C11_empty_block_refuted`: A line with nothing but braces reads the first element of an empty vector.
* `C61_self_import_refuted`
* `C53_order_refuted`: The comparison of daughters has cycles: Delta(1232)- comes before its antiparticle (ids 1114 and -1114: line 813), that one before Delta(1232)0 (charges +1 and 0: line 815), and Delta(1232)0 before Delta(1232)- (charges 0 and -1). All four states have mass 1232 and spin 3/2 in options/mass_width.csv:442-445; with such daughters std::stable_sort has undefined behaviour.
* `C53_greater_refuted`: [a > b] is [!(a < b)]: true of two particles that cannot be told apart, and of a particle and itself.
* `C53_canonical_refuted`: Two resonances of the same name with different lineshapes or decays have no index and are not told apart: they stay in the order given, so one amplitude has two descriptors.
* `C82_degenerate_refuted`: A function that is a quotient of polynomials of lower degree, such as a constant, makes the matrix singular for every order and every choice of the samples: there is nothing for gsl_linalg_LU_invert (src/Pade.cpp:33) to return, and its default is to abort the program, although such a function is the easiest to approximate.
* `C98_spin3_refuted`: For a particle with spin 3 that decays to three particles (omega(3)(1670)0 -> pi+ pi- pi0) the tensor is 1 and does not change sign, but finalStateParity is -1.
* `C98_half_refuted`: For a particle with spin 1/2 that decays to three particles (Lambda(c)+ -> p K- pi+), (-1)^J is not a number and its conversion to int is undefined.
* `C98_bgspin0_refuted`: A term with the modifier BgSpin0 has no spin factor, but changes sign in AMP with -1.
* `C98_inco_refuted`: A term with the modifier Inco is the root of a sum of squares, which inversion does not change, but changes sign in AMP with -1.
* `C98_scalar_refuted`: The vertex of a vector to a tensor and a scalar in D wave does not use the tensor of the scalar: a scalar that itself changes sign is counted in finalStateParity only.
* `C67_sign_refuted`: A sign in front of an operand reads past the end of the operands instead of being an error.
* `C67_compose_refuted`: Functions written one after the other are applied in the wrong order: half neg 7 is neg ( half 7 ) = -3 and not half ( neg 7 ) = -4.
* `C67_missing_operator_refuted`: Two operands without an operator between them: the first is returned, after a printed message only.
* `C67_empty_refuted`: Empty brackets read the first operand of an empty list.
* `C109_words_refuted`: A text with another number of words, or another word than PDG, is accepted, and mean and width are not initialised (src/ExtendLikelihoodBase.cpp:25-43).
* `C109_factory_refuted`: The terms with an amplitude cannot be made by name, as the factory gives them none: one throws when it is configured, the other uses a null pointer (AmpGen/ExtendLikelihoodBase.h:43, 60; AmpGen/Factory.h:39).
* `C109_pdg_name_refuted`: Names with two underscores: PDG takes the part before the first, so that the width of a parameter of a decay can be taken for that of the particle.
* `C46_threshold_refuted`: setDecay refuses a decay at threshold, the constructor ignores this (src/PhaseSpace.cpp:22), and filling an event does not end.
* `C46_below_threshold_refuted`: Below threshold the event is filled with momenta that are not numbers.
* `C46_one_particle_refuted`: One particle: set up without complaint, then [fill] reads pd[0], which nothing has written.
* `C46_many_particles_refuted`: Nineteen particles overrun the member arrays.
* `C84_dim_refuted`: A particle of spin 3/2 (an Omega baryon, say) has dimension 4 but one state of polarisation: the amplitudes have one field each and four are read from the cache.
* `C84_one_refuted`: The factor of the transverse components of the polarisation is sqrt(3/8) where that of the longitudinal one, 3/2, requires 3/sqrt(8) (src/PolarisedSum.cpp:154-156, 399-405): a particle that is fully polarised along x can be found with its spin in the opposite direction.
* `C84_external_refuted`: The function FCN_extPol written by generateSourceCode is made from three parameters of polarisation for every decaying particle with spin (src/PolarisedSum.cpp:372-373): for spin 1 five more are read beyond the end.
* `C83_polfrac_refuted`: For a decaying particle of spin 1/2 and with polFrac, the normalisation leaves out all but the first state of the decaying particle (src/PolarisedSum.cpp:279): the density is not normalised.
* `C83_components_refuted`: With polFrac they do not: they ignore it.
* `C36_no_worker_refuted`: A pool built with no worker (for instance with hardware_concurrency(), which may return 0) accepts tasks, and its shutdown returns without having run them.
* `C36_after_wait_refuted`: After waitForStoppedThreads() has returned, enqueue accepts a task that no continuation of the execution runs, and the destructor joins the same threads a second time, which throws.
* `C36_disabled_refuted`: With ThreadPool::Enable = false the task is run, but the future that enqueue returns never gets its value: get() throws.
* `C101_binFunctor_refuted`: A value up to one bin below the range is in bin 0 of binFunctor, where the histogram has none of it.
* `C101_autowrite_refuted`: AutoWrite(false) writes the histogram as AutoWrite(true) does.
* `C101_range_refuted`: Norm is the number of events in the range, not of all events: for the events themselves, with a density equal to that they were generated with and Norm the number of events, the stack is not the histogram of the events if some are outside the range.
* `C107_default_modifier_refuted`: With a default modifier, a decay into three particles is not given the Breit-Wigner of fixed width, but the one for two particles, with the masses of the first two of the three (src/Particle.cpp:208-210, 374).
* `C107_unknown_refuted`: A modifier of EtaDalitz that is no lineshape: the text is accepted as a lineshape, and a null pointer is used (src/Lineshapes.cpp:103, 127-129; src/Lineshapes/EtaDalitz.cpp:29).
* `C107_single_refuted`: A decay to a single particle, with a lineshape of another name than a Breit-Wigner: the second daughter is used, which does not exist (src/Particle.cpp:375-378, AmpGen/Lineshapes.h:64).
* `C50_weak_refuted`: A rho(770)+ decaying to pi+ pi0 conserves the flavour numbers, yet [isWeakDecay] returns true ("or" for "and" in Particle.cpp:776).
* `C50_transitive_refuted`: Comparison for equality is not transitive: K0 and K0bar are both "equal" to KS0.
* `C50_self_refuted`: Adding a content with two alternatives to itself in place leaves no alternative, because the argument is cleared; it is then equal to nothing, itself included.
* `C91_at_rest_refuted`: A particle that decays and is exactly at rest in the frame of its mother, as it is whenever a mother has exactly the mass of its daughters, has a null vector as direction of the boost: the event is not a number (norm of a null vector is divided by, src/Kinematics.cpp).
* `C91_shared_place_refuted`: A decay with more particles of a name than the event type has: a particle inside a resonance keeps the place it was given by the constructor for the resonance alone, which another particle has too, and the event has the sum of their momenta there (src/RecursivePhaseSpace.cpp:28-38).
* `C23_two_wrappers_refuted`: Two nodes around the same inner expression but with different keys (one made with [make_cse(e)] and one with [make_cse(e, true)]): the second key is used by the body and never defined, so the generated source does not compile.
* `C24_spline_refuted`: A spline whose name is already that of a parameter gets the single cell of the parameter: the cells it uses run into those of the next name and past the end.
* `C57_identical_refuted`: Two daughters of the same kind are replaced together, the coupling counted once: of the four combinations of two rules there are two, with one coupling too few.
* `C57_contained_refuted`: A name that contains that of a decaying particle is replaced too: with a rule for the K0, the K0S0 (the name of the short-lived neutral kaon in the particle table) becomes a K0 that decays in the same way.
* `C57_modifiers_refuted`: The modifiers given to a particle that decays by a rule are dropped, being left after the closing brace.
* `C57_lost_refuted`: An amplitude given directly and also by a cascade is kept once, with the coupling met first: the other is lost.
* `C57_extra_refuted`: A decay with more particles than the event has is accepted: only the final states of the event are asked for.
* `C106_polyNR_refuted`: The documentation gives the root of the polynomial, the shape is the polynomial (AmpGen/Lineshapes.h:327-329, src/Lineshapes/PolyNR.cpp:30-39).
* `C106_eta_mass_refuted`: When the mass of the three particles is not that of the tables, what is used is not the kinetic energies, and the shape is another one (src/Lineshapes/EtaDalitz.cpp:20-22).
* `C106_eta_negative_refuted`: Where the distribution that is documented is negative the shape is 1, as at its middle (src/Lineshapes/EtaDalitz.cpp:27); this happens for other masses than those of the eta.
* `C102_loading_refuted`: With fewer events than a block holds, reading them is undefined behaviour: the lanes behind the events are taken from events without values.
* `C102_loop_refuted`: When the number of events is a multiple of the number in a block, the step past the last event reads the block behind the last one: every range-for over such a list reads outside the storage.
* `C102_sums_refuted`: Otherwise the likelihood of a converted list is not that of the list: the lanes behind the last event carry its weight, since a default of zero passed to gather means "repeat the last".
* `C102_files_refuted`: A list read from several files holds the events of the last one only: each file replaces what was read before.
* `C51_names_refuted`: a(1)(1260)0 is listed in options/mass_width.csv with an antiparticle written by its charge (format B), which has no sign: both entries have the same name, and the name finds the antiparticle, with id -20113.
* `C51_conjugation_refuted`: Entries of options/mass_width.csv without an id have id 0: the conjugate of phi(2170)+ is looked up as -0 = 0 and gives the last entry without id, here the K(1630)bar-.
* `C51_added_refuted`: A particle Zprime with a mass and a spin added by the user: whether it has an antiparticle is read from an uninitialised character.
* `C51_alias_refuted`: The alias of a charged particle is its own antiparticle: makeAlias removes the mark of a distinct antiparticle but keeps charge and quarks.
* `C51_odd_refuted`: "Particle Zprime mass": the key without value is only reported, then the words are read past the end.
* `C51_order_refuted`: A particle without id among others is compared by its name: three particles in a cycle; and one as large as, yet "greater" than, the other both ways.
* `C52_J_refuted`: The spin of the neutron is printed as 0/2, that of a Delta as 1/2.
* `C52_polarisations_refuted`: A Delta (spin 3/2) gets one polarisation state instead of four, after a warning.
* `C71_left_refuted`: At the first knot, and below, the value is that of the last knot.
* `C71_digits_refuted`: The constants of the generated code are printed with six digits, and the remainder is taken with the printed distance of the knots but the number of the knot with its inverse: where the two disagree, next to the knots, the value is off by the distance between two knots. Four knots 0, 1, 2, 3 between 0 and 2: at the knot of height 2 the value is 2.9999995.
* `C111_missing_refuted`: Couplings that are not given at all are not reported but read behind the end of the default, which is one number (src/Wigner.cpp:209-216).
* `C30_many_events_refuted`: The number of blocks is converted to [unsigned]: with 2^32 events (one value per block) there is no block at all and the first event is outside the storage.
* `C30_resize_refuted`: With structures of arrays a change of the number of events leaves the old values at the old addresses: event 0 of field 1 reads what was event 1 of field 0. With arrays of structures the same happens when a function is added to a filled store and the store is sized again.
* `C31_orphan_fields_refuted`: The constructor of a cache of a single function (AmpGen/Store.h:143-148) starts with one field: field 0 belongs to no function and is stored for every event. (It also reads the size of the input through a member that is not yet initialised, line 120.) After [clear] the number of fields is not reset either: registering the same function again leaves its former fields without owner.
* `C58_keyword_refuted`: A name that is a word of the language stays one, which the compiler does not take for a function name.
* `C58_empty_refuted`: The symbol of an expression without a name is empty.
* `C58_distinct_refuted`: All punctuation becomes the same character: a decay to three bodies inside one to two, and a decay to two bodies inside one to three, have the same symbol when the same names come in the same order.
* `C58_sign_refuted`: A sign and the letter it becomes are the same: the expressions K+ and Kp share a symbol.
* `C58_companion_refuted`: The function that gives the name of an expression x is called x_name: an expression of that name collides with it.
* `C88_indices_left_refuted`: After the expression of an amplitude with identical particles is built, their indices are not those they had: what is then read from the particle (its momenta, its invariant masses) belongs to other particles of the event.
* `C88_three_fermions_refuted`: With three identical fermions an amplitude is not antisymmetric: cyclic exchanges have the wrong sign.
* `C88_polarisations_refuted`: Only momenta are exchanged, polarisations stay where they are: for identical fermions with different polarisations, exchanging both does not change the sign.
* `C27_scalar_refuted`: A factor without any index (a scalar as an indexed tensor, for instance the full contraction of an earlier product): the do-while loop that fills the coordinates writes into an empty vector.
* `C28_overflow_refuted`: From rank 8 on the product of all differences of coordinates leaves the range of [int] (125411328000 for rank 8): undefined behaviour; with the usual wrap-around the components are not signs.
* `C29_symmetrised_refuted`: A tensor on which a symmetry has been imposed ([imposeSymmetry(0, 1)]): [data(i, j)] and [data(j, i)] are the same element, and the decomposition, which keeps two different triangles in place, overwrites one with the other. The inverse of ((2, 1), (1, 2)) comes out wrong although no pivot is 0.
* `C92_half_integer_refuted`: A head with half-integer spin: pow(-1, twoSpin/2.) is not a number, so no matrix element is; such widths are left out of the sum, which is 0, and every knot is 0/0 (src/ThreeBodyCalculators.cpp:167, 262).
* `C92_knots_999_refuted`: 999 knots is taken for no choice of knots: the step is never set, and reading it is undefined (src/ThreeBodyCalculators.cpp:191).
* `C92_graph_refuted`: widthGraph with limits: the points start at the minimum of the calculator, not at the one asked for (src/ThreeBodyCalculators.cpp:93).
* `C92_running_mass_refuted`: The running mass does not run: the dispersive integral is always 0, so the graph is the constant squared mass (or 0 without subtractions), whatever the widths are (src/ThreeBodyCalculators.cpp:46-55). The same holds for fastRunningMass.
* `C73_empty_refuted`: A spinor cannot be passed through a sequence without transforms: buildCache sets the two-dimensional identity for spinors and then, for want of an [else], replaces it by the four-dimensional one; the product reads past the two components of the spinor. The same holds for a sequence that an empty sequence was joined to.
* `C73_rest_refuted`: A slow particle is not brought to rest: below a squared momentum of 1e-15 the angles are replaced by zero, so a momentum along x is boosted along z.
* `C95_mismatch_refuted`: Decays to different particles are not answered with None: the flag is one among others.
* `C95_shape_refuted`: Line shapes, vertices and spin configurations are not compared: a channel that differs in one of these only is taken for the other.
* `C96_copy_refuted`: A copy is not independent: a change of a decay product of the copy changes the decay that was copied.
* `C96_descriptor_refuted`: The descriptor of a decay is not made again when it is expanded.
* `C96_shared_refuted`: Two particles expanded with the same decay share its products.
* `C97_index_refuted`: The particles at the ends lose their place in the event.
* `C97_only_refuted`: A quasi-stable particle that is the only daughter is left out, although it decays.
* `C105_filter_refuted`: A filter that no entry passes is as no filter: all entries are read (src/EventList.cpp:126, src/TreeReader.cpp:26).
* `C105_filter_and_list_refuted`: A filter together with a list of entries does not replace the list, as the warning says, but is added to it: entries are read twice (src/EventList.cpp:116-125).
* `C105_entry_list_refuted`: With a list of entries (or a filter) the increment after the last entry reads the list beyond its end (AmpGen/TreeReader.h:46-51, src/TreeReader.cpp:26).
* `C105_time_refuted`: Branches for all values of a time-dependent event, in the order of the event: the number of branches is not four times that of the particles, so they are taken for momenta without energies, and addresses outside the event are used (src/EventList.cpp:91, 98).
* `C105_units_refuted`: The units are those of energy, but also the decay time is multiplied by them (src/EventList.cpp:131).
* `C105_weight_refuted`: A list of events that is written and read again without further arguments has lost its weights: they are written, but only read when the branch is named (src/EventList.cpp:78, 115, 160).
* `C105_twice_refuted`: A column read to two places (here as an extra branch too): only the address given last is filled, and what has never been set is copied (AmpGen/TreeReader.h:27-31, src/TreeReader.cpp:32-35).
* `C103_names_refuted`: With thirteen, the projections on the particles 0, 1, 2 and on 0, 12 are both called s012.
* `C103_equal_refuted`: Events of equal types need not have the same size: the decay time does not count.
* `C103_conjugate_refuted`: The conjugate forgets the extensions of the event type.
* `C103_construct_refuted`: With a mother that is not known the construction does not fail: it leaves an event type without particles. Without any name it is undefined.
* `C03_replaceAll_short_refuted`: A shorter replacement skips an occurrence that directly follows a replaced one.
* `C03_replaceAll_diverges_refuted`: A longer replacement that contains the pattern past its own length never terminates.
* `C04_wildcard_false_negative_refuted`: A string the pattern describes is rejected ...
* `C04_wildcard_false_positive_refuted`: ... and one it does not describe is accepted.
* `C06_minSwaps_sign_refuted`: A cyclic permutation of three identical fermions: two exchanges sort it, so the sign should be (-1)(-1) = 1, and -1 is returned.
* `C08_key_refuted`: but it is not injective: both texts are possible source texts of products and sums of parameters.
* `C80_scalar_refuted`: V_TS_D leaves the scalar out (src/Vertex.cpp:294-299 has no factor V2[0]): the result is the same whatever the scalar does, so that in a cascade the decay of a scalar resonance beside a tensor drops out of the amplitude.
* `C80_gauge_refuted`: S_TV_rm does (src/Vertex.cpp:390-406): [res] contracts the tensor with the momentum of the resonance it belongs to (401), for which it vanishes, where the two vertices for vectors have the contraction with the momentum of the photon; nothing is left to cancel the first term. The same line makes the antisymmetric term of both tensor vertices vanish for every tensor of spin 2.
* `C81_antiparticle_refuted`
* `C81_axial_refuted`: The fourth, V_fF_S1 (src/Vertex.cpp:314), is not: the axial current of two fermions has the component (m1 + m2) times their pseudoscalar along P, and the vertex does not take it away as the other three do. A vector of momentum P is given a part of spin 0. Here two fermions of mass 1 at threshold.
* `C81_scalar_refuted`: f_fS_P, F_FS_P, r_fS_P, r_fS_D, R_FS_P and R_FS_D (src/FermionVertices.cpp:24-33, 138-161, 200-209, 314-337) have no factor V2[0]: the decay of a scalar resonance beside the fermion drops out of the amplitude, while the vertices with the other orbital angular momenta of the same decay keep it.
* `C81_chiral_refuted`: f_fS_SL, f_fS_SR, F_FS_SL and F_FS_SR (src/FermionVertices.cpp:84-95, 260-271) contract the matrix with V2, the tensor of the scalar, instead of V1, the bispinor. The tensor of the scalar has one component, of which the product reads four: the check in Tensor::symmetrisedIndex is off by one and reports without stopping, and the read is out of bounds, whatever the matrix and the bispinor are.
* `C56_projection_refuted`: A projection that its spin does not have (1/2 for spin 1) is not rejected: factorials of half-integers are rounded down, and the coefficient is 1 where the physical value is 0.

## Trusted base

* The Coq 8.16.1 kernel (and `coqc`, `vm_compute` as part of it); no plugin, no extracted code, no kernel check switched off.
* The axioms listed under "Assumptions" below, all from the standard library (the classical real numbers and functional
  extensionality on which they rest; excluded middle where lemmas on reals use it). No axiom of our own.
* The transcription: that the definitions of the `Model` files do what the cited lines of C++ do, up to the simplifications said
  in their comments. This is by reading; the code was neither built nor run.
* The specifications in the `Spec` files and the statements of the theorems in the `Props` files.
* Where a statement has hypotheses on things outside (ROOT's matrix inversion, a rounding function, the particle table, the number
  formats, random streams), those hypotheses.

## What is modelled

Cited places per area (from the comments at the definitions; the comment says what was left out or simplified there).

* **Binning** — AmpGen/BinDT.h: 48-83, 86-106, 149-152; AmpGen/FastDT.h: 30-40; src/BinDT.cpp: 38-51, 53-70, 91-103, 105-140, 112-126, 130-139, 142-147, 156-168, 170-189, 191-197, 271-308, 310-325, 316-321, 336-341, 345, 353-356, 360-363, 365-370; src/FastDT.cpp: 40-55, 88-102, 144-159, 175-249.
* **Chain** — AmpGen/DecayChainStack.h: 31-40, 56-68, 80-98, 99-113, 145-213, 151-178, 157-165, 162, 166-167, 195-210, 226-235, 237-258, 260-263, 264-271, 282-298, 317-341, 335-339; src/Particle.cpp: 36-45, 346-359, 778; src/TreePhaseSpace.cpp: 16-29, 55-60, 75-83.
* **Chi2** — src/Chi2Estimator.cpp: 14-34, 40-77, 51-57, 59-66, 69-74.
* **Coherent** — AmpGen/CoherentSum.h: 107-120; AmpGen/CompiledExpression.h: 130-136; AmpGen/FitFraction.h: 77-94; AmpGen/Integrator.h: 32, 34-49, 62-69, 62, 87-91; AmpGen/MatrixElement.h; AmpGen/Store.h: 149-206; src/CacheTransfer.cpp: 20-33, 54-57; src/CoherentSum.cpp: 44-71, 72-106, 76-87, 108-123, 110-119, 217-225, 227-235, 238-243, 250-265, 267-271, 289-300; src/CompiledExpressionBase.cpp: 73-76; src/Integrator.cpp: 13, 37-58, 41-55, 62-66, 68-72.
* **Conjugate** — src/AddCPConjugate.cpp: 15-77, 21-69; src/AmplitudeRules.cpp: 21-52, 122-125; src/ExpressionParser.cpp: 240-273; src/MinuitExpression.cpp: 12-29; src/Particle.cpp: 750-762, 879-891.
* **Containers** — AmpGen/DynamicContainer.h: 19-73, 30-31, 32-38, 39-46, 55-59, 63-64, 66-70; AmpGen/SmallVector.h: 4-36, 11-13, 18, 19-26, 28-31, 32-35.
* **Couplings** — src/Particle.cpp: 599-635, 599-654, 607-621, 637-654, 764-767.
* **Dalitz** — AmpGen/DalitzIntegrator.h: 46-52, 83-98; src/DalitzIntegrator.cpp: 33-38, 42-48, 49-61, 62-68, 69-84, 85-91, 93-96, 98-111, 113-128, 130-136, 138-153.
* **Descriptor** — AmpGen/Particle.h: 297-309; AmpGen/Utilities.h: 25-36; src/Lineshapes.cpp: 96-104; src/Particle.cpp: 77-121, 90-93, 124-154, 156-188, 164-182, 194-231, 282-292, 299-312, 314-323, 926-933; src/Utilities.cpp: 97-105, 137-178, 153-161, 166-176.
* **Discrete** — AmpGen/DiscreteDistribution.h: 19-24; src/DiscreteDistribution.cpp: 6-11, 13-14, 18-60, 27-29, 33-44.
* **Enum** — AmpGen/enum.h: 31-57, 34, 46-54, 58-70, 63-66.
* **Errors** — AmpGen/ErrorPropagator.h: 73-82, 73-83; src/ErrorPropagator.cpp: 51-107, 58-68, 80-107, 86-93, 109-240, 109-121, 123-149, 151-159, 161-181, 183-209, 211-227, 231-238, 240-251.
* **Evaluators** — AmpGen/KeyedFunctors.h: 21-26; AmpGen/MatrixElement.h; AmpGen/Store.h: 120-131, 147-186; AmpGen/SumPDF.h: 120-128, 129-137; AmpGen/Utilities.h: 168-172; src/CoherentSum.cpp: 321-339, 331-337, 333-335, 341-361, 352-354, 365-398, 381-395, 392; src/IncoherentSum.cpp: 152-170, 163-167, 172-198.
* **Events** — AmpGen/CoherentSum.h: 90; AmpGen/Event.h: 62; AmpGen/EventList.h: 142-146, 148-153; AmpGen/Generator.h: 53-71, 90-160, 138; src/CoherentSum.cpp: 289-297; src/Event.cpp: 33-38, 40-45, 47-56, 58-71, 76-78, 84-90, 92-96; src/EventList.cpp: 83, 208-211, 213-222, 229-233, 240-247, 244, 249-259; src/EventType.cpp: 79-105, 84-97, 218-222, 232-241, 248-259, 261-279, 262, 270-276, 290; src/PhaseSpace.cpp: 93.
* **Expr** — AmpGen/Expression.h: 41-58, 160, 190, 238, 253; AmpGen/Simplify.h: 16-25; src/BinaryExpression.cpp: 25-28, 30-43, 34-43, 45-77, 52, 54, 58, 69-74; src/Expression.cpp: 51-54, 56-70, 57-60, 72-78, 80-86, 88-101, 103-112, 114-126, 138-146, 148-164, 182-188, 193, 218-223, 250-253, 275-278, 301-307, 322-327; src/Simplify.cpp: 14-32, 34-48, 50-55, 57-66, 68-78, 80-84, 86-134, 136; src/UnaryExpression.cpp: 14-35, 17-35, 36-77, 80-99.
* **External** — AmpGen/Particle.h: 100; src/Particle.cpp: 233-253, 443-461, 531-597, 833-847; src/ParticleProperties.cpp: 27-39, 158-174.
* **Fit** — AmpGen/SimPDF.h: 12-17; AmpGen/SumPDF.h: 60-68, 69-81, 99-105; src/ExtendLikelihoodBase.cpp: 15-18; src/FitResult.cpp: 48; src/LASSO.cpp: 14-22; src/Minimiser.cpp: 87-89, 90-92, 95, 99-115, 188-235, 206-209, 227-235, 277-293, 328-352; src/MinuitParameter.cpp: 69-75; src/PartialWidthConstraint.cpp: 17-37, 23-33.
* **FitResult** — src/FitResult.cpp: 54-57, 75-78, 79-89, 92-109, 110-113, 117-130, 140-179, 148-161, 233-261, 322-326, 327-344, 363-372; src/Minimiser.cpp: 247-272, 359-366; src/MinuitParameter.cpp: 93-113; src/MinuitParameterSet.cpp: 100-107.
* **Fractions** — AmpGen/AmplitudeRules.h: 30-32; AmpGen/FitFraction.h: 41-49, 41-107, 62-75, 95-107, 100-101; AmpGen/MatrixElement.h; src/AmplitudeRules.cpp: 92-105, 177-180; src/CoherentSum.cpp: 142-178, 148-161, 151-157, 164-172; src/FitFraction.cpp: 33-38, 33-35; src/MatrixElement.cpp: 34-41, 58-65, 76-83.
* **Helicity** — src/Expression.cpp: 322-327; src/Wigner.cpp: 128-160, 128-136, 138-160, 222-337, 231-337, 286-296.
* **Incoherent** — AmpGen/FitFraction.h: 64, 77-94; AmpGen/IncoherentSum.h: 61; src/CoherentSum.cpp: 121, 267-271; src/IncoherentSum.cpp: 25-39, 70-84, 87-90, 92-103, 123-130, 150-167, 169-194.
* **Integrate** — AmpGen/NumericalIntegration.h: 62-204, 62-69, 95-102, 104-203, 105-121, 123, 132-200, 135-200, 149-158, 161-168, 187-198; AmpGen/simd/integrate_fp.h: 10-48, 10-47, 109-173, 112-130, 132-172, 144-162, 165.
* **Kahan** — AmpGen/KahanSum.h: 14-16, 17-31, 32, 34-43, 46-72.
* **Kinematics** — AmpGen/Event.h; src/Kinematics.cpp: 14-31, 46-53, 60-71, 73-87, 89-92, 94-117, 119-149, 151-164, 157-163, 166-181, 172-180, 183-195, 186-194.
* **Lineshapes** — AmpGen/Lineshapes.h: 245-262; AmpGen/kMatrix.h: 27-41; src/Expression.cpp: 296-314; src/Lineshapes.cpp: 11-15, 17-24, 26-40, 42-55, 57-67, 77-94, 135-144; src/Lineshapes/BW.cpp: 60-84, 86-96; src/Lineshapes/CoupledChannel.cpp: 37-49, 99-109, 145; src/Lineshapes/FOCUS.cpp: 18-47, 51-57, 73-77; src/Lineshapes/Flatte.cpp: 9-18, 19-65; src/Lineshapes/GLASS.cpp: 13-43; src/Lineshapes/GenericKmatrix.cpp: 123-143, 144-158, 160-165; src/Lineshapes/GounarisSakurai.cpp: 15-30, 39-45, 46-55, 55; src/Lineshapes/Isotensor.cpp: 12-29; src/Lineshapes/LASS.cpp: 13-52; src/Lineshapes/NonRelBW.cpp: 13-23; src/Lineshapes/PALANO.cpp: 20-54; src/Lineshapes/SplineShapes.cpp: 94-101; src/Lineshapes/kMatrix.cpp: 20-38, 47-50, 52-63, 65-79, 105-112, 154-161, 162-169; src/Lineshapes/kMatrixSimple.cpp: 74-82; src/UnaryExpression.cpp: 19.
* **Minuit** — AmpGen/MinuitParameter.h: 13, 53, 54, 59-69; AmpGen/MinuitParameterSet.h: 64-66; src/Minimiser.cpp: 87-89, 143-162, 151-160, 206-213, 297-307, 309-319; src/MinuitParameter.cpp: 13, 16-22, 24-29, 40-42, 46, 60, 77, 79-85; src/MinuitParameterSet.cpp: 30-42, 53-61, 80-87, 109-114, 117-155, 163-178, 167-176, 205-211, 219-235, 237-242, 251-255, 265-268, 270-273, 275-279; src/Utilities.cpp: 419-425.
* **Named** — AmpGen/NamedParameter.h: 39-58, 48-56, 61-69, 97-105, 139-149; src/Utilities.cpp: 444-448, 459-471.
* **Objects** — AmpGen/CompiledExpression.h: 183-191, 183-195; AmpGen/DynamicFCN.h: 60-70; src/CompiledExpressionBase.cpp: 36-46, 71, 87-125; src/CompilerWrapper.cpp: 70-133, 88-105, 91-94, 108-133, 152-202.
* **Options** — AmpGen/Utilities.h: 114-126; src/OptionsParser.cpp: 17-20, 33-41, 40-42, 43-48, 84-108, 93-107, 103, 110-114, 116-125, 127-162, 139-154; src/Utilities.cpp: 335.
* **Order** — AmpGen/Utilities.h: 25-36; src/Particle.cpp: 314-323, 674-681, 683-688, 778, 807-823, 807-818, 820-823.
* **Pade** — AmpGen/Pade.h: 10, 23-31, 33-43, 44-57; src/Pade.cpp: 20-21, 21, 23, 24-25, 32-33, 35-38.
* **Parity** — src/CoherentSum.cpp: 180-200, 191-195, 199; src/Particle.cpp: 233-261, 233-252, 282-292, 423-500, 443-483, 447-451, 485-499, 502-528, 511, 750-762; src/ParticleProperties.cpp: 182-197; src/Vertex.cpp: 34-45, 34-61, 163-299.
* **Parser** — src/ExpressionParser.cpp: 31-146, 31-42, 34-40, 44-54, 58-74, 62-66, 104-146, 150-167, 169-178, 170-178, 218-238.
* **Penalties** — AmpGen/ExtendLikelihoodBase.h: 22-66; AmpGen/Factory.h: 30-41; src/ExtendLikelihoodBase.cpp: 20-48, 25-44; src/LASSO.cpp: 24-29; src/MatrixElement.cpp: 67-74, 88-95; src/MinuitParameterSet.cpp: 89-96; src/PartialWidthConstraint.cpp: 39-61.
* **Phsp** — AmpGen/PhaseSpace.h; src/PhaseSpace.cpp: 15, 32-35, 37-87, 45-60, 47-50, 50, 51-55, 56-59, 65-87, 78-85, 99-118, 108-115.
* **Polarised** — AmpGen/Utilities.h: 174-191, 182-187; src/DiracMatrices.cpp: 21-24; src/EventType.cpp: 71-73, 74-76; src/Integrator.cpp: 41-55; src/ParticleProperties.cpp: 27-38; src/PolarisedSum.cpp: 69-72, 135-160, 174-176, 236-253, 265-297, 299-308, 299-317, 309-316, 381-427, 385-407, 408-419, 482-493, 549-563.
* **Pool** — AmpGen/ThreadPool.h: 66-82, 75, 75-77, 79; src/ThreadPool.cpp: 9, 16-21, 27-30, 32-41, 34-37, 38, 39, 40.
* **Project** — AmpGen/ArgumentPack.h: 77-85, 86-91; AmpGen/EventList.h; AmpGen/KeyedFunctors.h: 21-26; AmpGen/Projection.h: 92-100; src/Projection.cpp: 31, 55-57, 79-99, 118-156, 133-138, 137, 139.
* **Propagators** — AmpGen/Factory.h: 19-48, 33-48; AmpGen/Lineshapes.h: 44-80, 62-65; src/Lineshapes.cpp: 96-134, 96-104, 121-134; src/Lineshapes/EtaDalitz.cpp: 28-29; src/Particle.cpp: 361-385, 371-379.
* **Quarks** — AmpGen/QuarkContent.h: 17; src/Particle.cpp: 211-212, 702-712, 776; src/QuarkContent.cpp: 13, 16-20, 22-35, 37-44, 38-43, 46-52, 54-57, 77-99, 100-103, 105-110, 119, 121-124, 136-165, 180-187.
* **Recursive** — AmpGen/RecursivePhaseSpace.h: 37-43; src/RecursivePhaseSpace.cpp: 13-42, 27-38, 30-36, 44-73, 48-70, 75-86.
* **Resolver** — AmpGen/ASTResolver.h: 34-42; src/ASTResolver.cpp: 26-65, 30, 33-62, 34-43, 45-61, 46, 57-60, 67-75; src/Expression.cpp.
* **Rotations** — src/Expression.cpp: 322-327; src/Wigner.cpp: 27-71, 34-38, 40-45, 47-71.
* **Rules** — AmpGen/AmplitudeRules.h: 24-50; src/AmplitudeRules.cpp: 92-105, 120-145, 125-128, 137-140, 153-170, 201-230; src/Particle.cpp: 77-121, 102-111, 118, 325-344, 674-681, 787.
* **Shapes** — AmpGen/Lineshapes.h: 306-390; src/Lineshapes.cpp: 135-144; src/Lineshapes/Bugg.cpp: 12-42, 46-62, 59-86, 98; src/Lineshapes/EtaDalitz.cpp: 13-32; src/Lineshapes/Gaussian.cpp: 9-15; src/Lineshapes/Poly.cpp: 10-18; src/Lineshapes/PolyNR.cpp: 10-40.
* **Simd** — AmpGen/Event.h: 18-66, 39; AmpGen/EventListSIMD.h: 36-39, 52-55, 79-84, 88-91, 137-141; AmpGen/Integrator.h: 34-49; AmpGen/Store.h: 21-25, 65; AmpGen/SumPDF.h: 59-66, 79-87; AmpGen/simd/iterator.h: 11-28, 19-37; AmpGen/simd/utils.h: 65-74, 79-89; src/EventListSIMD.cpp: 38-40, 119-135, 141-151, 215-226, 228-245, 247-253; src/Integrator.cpp: 37-58.
* **Species** — AmpGen/ParticleProperties.h: 29, 64-68, 83-107; src/Particle.cpp: 694; src/ParticleProperties.cpp: 27-38, 40-50, 52-58, 60-115, 100-104, 117, 119-135, 137-144, 154-156, 158-161, 204-222, 225-250; src/ParticlePropertiesList.cpp: 94-116, 119-132, 141-160, 181-193, 195-214, 209-212; src/Utilities.cpp: 427-434.
* **Spline** — src/Array.cpp: 20-31; src/Expression.cpp: 56-70, 114-126, 151-154; src/Spline.cpp: 63-83, 68, 87-112, 126-151, 126-140, 130.
* **States** — AmpGen/Wigner.h: 42-49; src/Wigner.cpp: 187-195, 187-205, 197-205, 207-223, 209, 210-217, 264-288, 270.
* **Store** — AmpGen/Store.h: 13-15, 21-25, 23, 29-39, 51-55, 66-70, 71-75, 78-82, 84-91, 92, 93-96, 101-107, 109-113, 126-133, 149-151, 185-205; AmpGen/simd/utils.h: 73-75.
* **Symbols** — src/CoherentSum.cpp: 388; src/CompiledExpressionBase.cpp: 37-47, 39-46, 88, 93.
* **Symmetrise** — AmpGen/Particle.h: 303-305; src/Particle.cpp: 99-111, 100-111, 103-111, 104-110, 325-344, 340-342, 386-402, 386-410, 404-410, 425-500, 443-483, 733-737, 849-855.
* **Tensor** — AmpGen/Tensor.h: 146-150; src/Tensor.cpp: 25-30, 64-70, 77-85, 87-106, 113-125, 127-137, 144-147, 261-308, 365-370, 373-451, 390-407, 403-405, 419-436, 438-447, 442-445, 539-543, 602-624, 608-616, 619-622.
* **ThreeBody** — AmpGen/ThreeBodyCalculators.h: 16-25; src/Tensor.cpp: 64-70, 113-125, 242-259; src/ThreeBodyCalculators.cpp: 46-55, 57-86, 88-97, 132-136, 138-168, 162-165, 167, 170-192, 194-200, 202-219, 210-214, 213, 257-266.
* **Transform** — AmpGen/Transform.h: 20-21, 34-36; src/DiracMatrices.cpp: 11-25, 14-25; src/Tensor.cpp: 25-60, 166-182, 222-240, 373-451, 595-600; src/Transform.cpp: 5-14, 24-46, 48-55, 57-66, 67-97, 99-105, 107-110, 112-133, 135-149, 151-167, 181-183, 185-209, 211-214; src/Wigner.cpp: 100-128.
* **Tree** — AmpGen/Particle.h: 258-265, 291-309; src/Lineshapes/GenericKmatrix.cpp: 26-38; src/Particle.cpp: 346-359, 778, 833-847, 857-876, 864-869, 870-875, 902-912, 914-923.
* **Trees** — AmpGen/TreeReader.h: 13-104, 25-32, 46-51, 78-95; src/EventList.cpp: 63-168, 91, 93-115, 98, 109-113, 116-126, 130-139, 131-138, 131, 135-136, 144-168; src/TreeReader.cpp: 9-17, 23-28, 27, 40, 47; src/Units.cpp.
* **Types** — AmpGen/Utilities.h: 46-57, 51-55, 53; src/EventType.cpp: 27-66, 47-61, 49-53, 106-109, 110-165, 110-120, 121-135, 158-165, 167-206, 167-177, 179-197, 186, 191, 199-206, 214, 283-286, 283-307, 290.
* **Utilities** — src/Utilities.cpp: 25-34, 29-30, 31, 36-56, 44-52, 74-81, 83-95, 88, 107-124, 116-122, 117, 126-131, 190-203, 199, 199-201, 216-239, 219, 227, 233-234, 234, 241-249, 320-324, 322, 327, 329-333, 331, 491-516, 493-495, 499-514, 504-509.
* **Vertex** — AmpGen/Vertex.h; src/DiracMatrices.cpp: 14-19, 40-43; src/FermionVertices.cpp; src/Tensor.cpp: 64-70, 242-259, 373-451, 377-453, 440-445, 442, 595-600, 602-624; src/Vertex.cpp.
* **Wigner** — src/Wigner.cpp: 27-32, 73-98, 82-84, 87-95, 162-187.


## Assumptions

What `Print Assumptions` lists, per theorem. All axioms are of the standard library.

- Closed under the global context (316 theorems): C01_split_delims, C02_split_join, C02_split_lossless, C03_replaceAll_diverges_refuted, C03_replaceAll_partial, C03_replaceAll_short_refuted, C03_replaceAll_terminates_partial, C03_spec_functional, C04_wildcard_false_negative_refuted, C04_wildcard_false_positive_refuted, C04_wildcard_partial, C04_wildcard_total, C05_editDistance, C06_minSwaps_count, C06_minSwaps_sign_partial, C06_minSwaps_sign_refuted, C07_trim, C08_key_partial, C08_key_refuted, C09_glued_comment_refuted, C09_pieces, C09_tokenise_partial, C10_last_wins, C10_ordered_duplicate_refuted, C10_ordered_partial, C11_blocks_partial, C11_conservation, C11_empty_block_refuted, C11_open_block_refuted, C11_stray_brace_refuted, C12_addOrGet, C12_consistent_partial, C12_destroy_partial, C12_double_delete_refuted, C12_duplicate_refuted, C12_rename, C12_subscript_refuted, C12_unregister_refuted, C13_covariance, C13_stale_index_refuted, C13_values, C14_declared, C14_nothing_partial, C14_number_flag_refuted, C15_empty_refuted, C15_number, C15_number_refuted, C15_round_trip, C15_unknown_word_partial, C16_flag_partial, C16_value_refuted, C17_file_partial, C17_fixed_offset_refuted, C17_minos_partial, C17_no_offset_refuted, C17_options_refuted, C17_print_partial, C17_table_partial, C18_no_parameters_partial, C18_read_refuted, C19_add_partial, C19_div_partial, C19_fpow_partial, C19_mul_partial, C19_pow_partial, C19_sub_partial, C19_tiny_refuted, C19_unary, C19_zero_over_zero_refuted, C20_digits_refuted, C20_fmod_refuted, C20_text_partial, C20_unambiguous, C21_conventional, C21_documented, C21_unambiguous, C22_digits_refuted, C22_divisor_refuted, C22_exact_text_partial, C22_polynomial_partial, C22_power_refuted, C23_order_partial, C23_two_wrappers_refuted, C24_function_objects, C24_ranges, C24_sizes_partial, C24_spline_refuted, C26_bijection, C27_product_partial, C27_scalar_refuted, C28_antisymmetric_partial, C28_overflow_refuted, C29_inverse, C29_leading_blocks, C29_symmetrised_refuted, C30_cells, C30_events_partial, C30_many_events_refuted, C30_resize_partial, C30_resize_refuted, C30_update, C31_blocks_partial, C31_orphan_fields_refuted, C32_cache_partial, C32_in_place_refuted, C32_same_name_refuted, C34_queue, C36_after_wait_refuted, C36_disabled_refuted, C36_live_partial, C36_no_worker_refuted, C36_once_partial, C37_constructor_refuted, C37_partition_partial, C37_small_sample_refuted, C37_ties_refuted, C37_two_samples, C38_node_order_refuted, C38_round_trip, C39_best_refuted, C39_median_refuted, C39_small_sample_refuted, C39_training_partial, C39_two_samples, C40_fractions_refuted, C40_loss_partial, C40_whole_weights_partial, C41_contents, C41_positions_partial, C41_removal_refuted, C41_resize_refuted, C41_self_append_refuted, C42_decay_time_refuted, C42_extension_refuted, C42_name_clash_refuted, C42_no_energy_refuted, C42_resize_refuted, C42_slots_partial, C43_conjugate_partial, C43_mismatch, C43_multiplicity_refuted, C43_same_particles, C43_too_many_refuted, C44_invariance, C44_masses, C44_reorder, C44_swap, C45_bound_refuted, C45_generation, C45_index_refuted, C47_random, C47_random_refuted, C50_anti, C50_equal, C50_read, C50_read_state, C50_self_refuted, C50_strong, C50_sum, C50_transitive_refuted, C50_weak, C50_weak_refuted, C51_added, C51_added_refuted, C51_alias, C51_alias_refuted, C51_anti, C51_conjugation, C51_conjugation_refuted, C51_names, C51_names_refuted, C51_odd, C51_odd_refuted, C51_order_partial, C51_order_refuted, C51_table, C52_J_half, C52_J_partial, C52_J_refuted, C52_polarisations_other, C52_polarisations_partial, C52_polarisations_refuted, C52_read, C53_canonical_partial, C53_canonical_refuted, C53_conjugate, C53_greater, C53_greater_refuted, C53_keeps, C53_order_partial, C53_order_refuted, C53_unique, C54_arity, C54_couplings, C54_range, C54_range_parity, C54_statistics_refuted, C55_balanced, C55_comma_refuted, C55_empty_refuted, C55_odd, C55_orbital_refuted, C55_read, C55_roundtrip, C55_swave_refuted, C55_trailing_refuted, C55_valid, C55_valid_refuted, C55_vertex_refuted, C57_expand, C57_matching, C58_companion_refuted, C58_distinct, C58_distinct_refuted, C58_empty_refuted, C58_idempotent, C58_identifier, C58_keyword_refuted, C58_sign_refuted, C60_swapChars_involutive, C61_delivered, C61_import_terminates_partial, C61_self_import_refuted, C62_last_declaration_partial, C62_override_refuted, C63_complex_refuted, C63_limit_refuted, C63_name_refuted, C63_options_partial, C64_by_name, C64_reduced, C65_default_partial, C65_given_partial, C65_unreadable_refuted, C66_default_refuted, C66_dropped_refuted, C66_early_refuted, C66_numbered_partial, C67_compose_refuted, C67_empty_refuted, C67_missing_operator_refuted, C67_returns_partial, C67_sign_refuted, C68_every_arrangement, C68_identical_only, C68_unbiased, C69_projections, C84_combinations, C84_dim_partial, C84_dim_refuted, C88_indices, C88_orderings, C88_states, C89_keys_partial, C89_keys_refuted, C91_places, C94_no_state, C94_states, C95_channel, C95_exact, C95_flags, C95_mismatch_refuted, C95_shape_refuted, C95_symmetric, C96_clone, C96_copy_refuted, C96_descriptor_refuted, C96_expand, C96_independent, C96_shared_refuted, C97_index_refuted, C97_only_refuted, C97_quasi, C98_half_refuted, C99_again, C99_prefix_refuted, C99_twice_refuted, C99_unnamed_refuted, C103_combinations, C103_conjugate, C103_construct_partial, C103_construct_refuted, C103_count, C103_equal, C104_component_partial, C104_indices, C107_descriptor, C107_register, C107_two_body, C108_cache_partial, C108_collision_refuted, C108_failure_refuted, C108_file_names, C108_force_refuted, C108_incomplete, C108_incomplete_refuted, C108_names_refuted, C108_new_file, C108_not_null, C108_one_file, C108_other_files, C108_stale_refuted, C108_temporary, C109_find, C109_lasso, C109_parameter, C109_pdg, C109_width, C110_again_refuted, C110_const_refuted, C110_empty, C110_equal_partial, C110_equal_refuted, C110_iterate, C110_small, C110_uneven_refuted.
- `ClassicalDedekindReals.sig_forall_dec` (16 theorems): C57_contained_refuted, C57_extra_refuted, C57_identical_refuted, C57_modifiers_refuted, C81_chiral_refuted, C87_fit, C87_run_minos_partial, C87_run_minos_refuted, C91_shared_place_refuted, C103_conjugate_refuted, C103_equal_refuted, C107_eta, C107_single_refuted, C107_unknown_refuted, C111_couplings, C111_missing_refuted.
- `ClassicalDedekindReals.sig_forall_dec`, `FunctionalExtensionality.functional_extensionality_dep` (114 theorems): C33_norm_partial, C35_sum, C47_accept_partial, C47_ceiling_is_minimum, C47_ceiling_refuted, C48_default_refuted, C48_empty_refuted, C48_length, C48_probabilities, C49_exact, C57_lost_refuted, C59_diagonal, C59_merge, C59_reset, C71_digits_refuted, C71_invertible, C71_knots, C71_left_refuted, C71_natural, C71_smooth, C71_unique, C73_gamma, C74_adaptive, C74_dim_refuted, C74_tiles, C75_copy_partial, C75_copy_refuted, C75_falls_partial, C75_pol, C75_threshold, C77_imaginary_refuted, C77_one_pole, C77_propagator, C77_pvec_count, C77_pvec_partial, C77_pvec_refuted, C77_two_channel, C79_covariant, C79_pwave, C79_spin1, C79_spin2, C80_covariant, C80_exchange, C80_scalar, C80_spin, C81_axial_refuted, C81_currents_covariant, C81_currents_partial, C81_maps, C82_degenerate_refuted, C82_exact, C82_interpolates, C85_density, C85_fractions, C85_fractions_refuted, C85_norm, C85_normalised_partial, C85_normalised_refuted, C86_width_partial, C87_gradient, C87_minos, C87_scan, C87_scan_ends, C87_scan_refuted, C90_empty_bin_refuted, C90_order, C90_outside_refuted, C90_scale, C90_value, C90_zero, C92_average, C92_graph_refuted, C92_half_integer_refuted, C92_knots, C92_knots_999_refuted, C92_scale, C92_unit, C98_inversion, C98_spin3_refuted, C99_complex_refuted, C99_kept, C99_value, C100_name_refuted, C100_sum, C101_autowrite_refuted, C101_binFunctor_partial, C101_binFunctor_refuted, C101_components, C101_contents, C101_order, C101_range_refuted, C101_sorted, C101_stack, C102_conversion, C102_files_refuted, C102_loading_partial, C102_loading_refuted, C102_loop_partial, C102_loop_refuted, C102_transform_partial, C103_names_partial, C103_names_refuted, C104_list, C104_name_refuted, C104_prefix_refuted, C104_single_refuted, C104_sum_partial, C106_poly, C106_polyNR_partial, C107_default_modifier_refuted, C107_defined, C107_product, C109_factory_refuted, C109_pdg_name_refuted.
- `ClassicalDedekindReals.sig_forall_dec`, `ClassicalDedekindReals.sig_not_dec`, `FunctionalExtensionality.functional_extensionality_dep` (175 theorems): C46_below_threshold_refuted, C46_event, C46_live, C46_many_particles_refuted, C46_one_particle_refuted, C46_safe, C46_threshold_refuted, C46_two_bodies, C46_weight, C47_boost, C56_exchange, C56_permute, C56_projection_refuted, C56_selection, C56_spin0, C57_polar, C57_product, C59_correlation, C59_covariance, C59_linear, C59_objects_refuted, C59_reset_refuted, C59_restores, C59_scale, C59_stale_refuted, C59_vector, C59_weights, C59_zero_refuted, C69_orthonormal, C69_raising, C69_recoupling, C69_sign, C72_basis, C72_boost, C72_boost_back, C72_helicity, C72_masses, C72_rest, C72_rotate, C72_rotate_sum, C72_transfer, C73_acts_partial, C73_bispinor, C73_boost, C73_empty_refuted, C73_inverse, C73_order, C73_rest_partial, C73_rest_refuted, C73_spinor_partial, C74_one_refuted, C74_table, C75_BL, C75_BL_refuted, C75_barrier_one, C75_barrier_partial, C75_barrier_refuted, C75_belle, C75_momentum, C75_width_partial, C75_width_pole, C75_width_sign, C76_elastic, C76_flatte, C76_flatte_refuted, C76_peak, C76_phase, C76_phase_refuted, C77_closed, C77_focus, C77_palano, C77_phase_space, C77_phsp_twoBody_partial, C77_phsp_twoBody_refuted, C77_poles, C77_unitary, C77_width, C78_inelastic, C78_isotensor, C79_rest, C80_gauge_partial, C80_gauge_refuted, C80_helicity, C80_scalar_refuted, C81_antiparticle_refuted, C81_covariant, C81_dirac, C81_dirac_anti_partial, C81_projectors, C81_scalar_partial, C81_scalar_refuted, C81_spin3h, C83_components_partial, C83_components_refuted, C83_norm_partial, C83_polfrac_partial, C83_polfrac_refuted, C84_external_refuted, C84_half, C84_hermitian, C84_one_partial, C84_one_refuted, C86_interference_refuted, C86_lasso_refuted, C86_reported_refuted, C86_width_refuted, C88_again, C88_bosons, C88_distinct, C88_fermions, C88_incoherent, C88_indices_left_refuted, C88_polarisations_refuted, C88_three_fermions_refuted, C88_value, C91_at_rest_refuted, C91_event, C92_running_mass_refuted, C93_event, C93_integrand, C93_other_mass_refuted, C94_antiparticle_refuted, C94_backwards_refuted, C94_backwards_vector_refuted, C94_basis, C94_conjugate, C94_helicity_spinors, C94_helicity_vectors, C94_invalid_refuted, C94_near_axis_refuted, C94_off_shell_refuted, C94_photon, C94_spinors, C94_tensor_refuted, C94_vectors, C98_AMP, C98_bgspin0_refuted, C98_inco_refuted, C98_scalar_refuted, C98_term, C99_coupling, C99_sign_refuted, C100_components, C100_evaluator, C100_scale_refuted, C103_projections, C104_component_refuted, C105_entry_list_partial, C105_entry_list_refuted, C105_filter_and_list_refuted, C105_filter_partial, C105_filter_refuted, C105_four, C105_read, C105_three, C105_time_refuted, C105_twice_refuted, C105_units_refuted, C105_weight_refuted, C105_write_read, C106_eta_mass_refuted, C106_eta_negative_refuted, C106_eta_partial, C106_polyNR_refuted, C109_gaussian, C109_missing, C109_words_refuted, C111_axis, C111_complete, C111_complete_spinor, C111_own, C111_photon, C111_spinor, C111_unitary, C111_vector.
- `ClassicalDedekindReals.sig_forall_dec`, `ClassicalDedekindReals.sig_not_dec`, `Classical_Prop.classic`, `FunctionalExtensionality.functional_extensionality_dep` (57 theorems): C25_arcsine_refuted, C25_derivative_partial, C25_zero_refuted, C47_quasi_stable, C47_safe, C47_sampling, C47_state, C47_weight, C49_klein, C49_lost, C49_plus_refuted, C49_total, C70_compose, C70_identity, C70_orthonormal, C70_outside, C70_rotation, C70_transpose, C72_acoplanarity, C72_phi, C72_phi_rotate, C73_lorentz, C73_rotate, C74_exact, C74_rule, C76_cauchy, C76_gounaris, C76_gounaris_peak, C76_normalised, C78_glass, C78_glass_degrees_refuted, C78_glass_partial, C78_glass_refuted, C78_lass, C78_lass_phase, C86_constrained_partial, C86_likelihood, C86_simultaneous, C89_amplitudes, C89_axis_refuted, C89_higher_spin_refuted, C89_impossible_refuted, C89_isotropic, C89_least_spin, C89_waves, C93_all_reached, C93_coordinates, C93_jacobian, C102_sums_converted, C102_sums_converted_partial, C102_sums_loaded, C102_sums_refuted, C106_bugg_four_pions, C106_bugg_pole, C106_bugg_threshold, C106_bugg_unitarity, C106_gaussian.


## What is not modelled

* Floating-point rounding, overflow and signed zeros, except where a theorem is about rounding (Kahan summation). Reals, rationals or an
  arbitrary field stand for `double`; NaN is a separate outcome where the code can produce it and it matters.
* The generated and compiled code: the text produced for an expression is modelled (Expr, Symbols), the C++ compiler, `dlopen` and the
  calling convention are not; neither are the CUDA variant and the intrinsics of `AmpGen/simd` (real_v is a list of lanes, area Simd; of `EventListSIMD` the tree and the drawing are left out).
* ROOT (`TTree`, `TH1`, `TMatrixD`, `TRandom3`, Minuit2 itself) and the file system: readers and writers are modelled on lines and tokens, a tree as columns and rows.
* Of the lineshapes: `TD`, `Photon`, `rho_threeBody`, the modifiers of `EtaDalitz`,
  the four-pion and Chew-Mandelstam phase spaces, and the look-up of parameters by name. Those that
  are modelled stand for the number that their expression evaluates to (C19 is about evaluation); units are taken to be GeV.
* Of the vertices: the registration of vertices in `Vertex::Factory` (the choice by name is part of C98), naming of subexpressions, debugging output.
* Of `PolarisedSum`: construction and compilation of the amplitudes, `debug`. the proxies of `TreeReader` and the deduction of an event type from a tree (reading is area Trees), drawing of `Projection` (its contents are area Project), `ProgressBar`, `ProfileClock`, `MsgService`, the flags and the process of the compiler in `CompilerWrapper` (linking and the cache of objects are area Objects), the parsing of `Units`,
  and the programs in `apps/`, except where an area above cites them.
* Memory: object lifetime and aliasing only where a property is about them (parameter sets, propagators, event lists, the thread pool).
  The C++ memory model is reduced to interleavings of steps made with the mutex held (Pool).
* Exceptions of the standard library other than those modelled as `Throw`; allocation failure.

## Seeded bugs

`seeded/LOG.jsonl` has one line per edit of a model definition: `failed` are the theorems that no longer prove or that use a lemma that no longer proves. In lines
before those of the areas Containers and States, the list can also have, in areas over the real numbers, the theorem that stands just before
a failing one in its file: the script that made the list read the statement of the next theorem as part of the assumptions of the previous one. A line with an
empty list is an edit that no theorem noticed; `tightened` then names what was added, or the claim says that the edit does not change what can be observed.

