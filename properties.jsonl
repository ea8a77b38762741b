{"id": "C01", "title": "Index accepts exactly space-label + decimal number", "statement": "Index(name) succeeds iff name is one of the 12 MO-space letters followed by one or more decimal digits; the resulting space is that letter and the number is the decimal value of the digits. A bad label or bad digits raise ValueError, the empty string raises IndexError. For every space s and natural number n, Index(f'{s}{n}') succeeds, has space s, number n, and that name is printed back unchanged; two such names coincide only if s and n coincide.", "quantifier": "all ASCII strings; all labels and all natural numbers", "why_tests_cant": "the set of names is infinite; a parse/print round trip for every number is an algebraic law", "anchors": ["dsrg_generator/Index.py:Index.__init__", "dsrg_generator/Index.py:Index.latex", "dsrg_generator/Term.py:Term._generate_next_index"]}
{"id": "C02", "title": "Index comparison is a strict total order consistent with ==", "statement": "For any two Index objects exactly one of a<b, a==b, a>b is True; < is transitive; <= and >= are the reflexive closures; the order is by space priority (g<p<h<v<c<a<G<P<H<V<C<A) and then by number.", "quantifier": "all pairs and triples of indices", "why_tests_cant": "order laws quantify over all triples of an infinite type", "anchors": ["dsrg_generator/Index.py:Index.__eq__", "dsrg_generator/Index.py:Index.__lt__", "dsrg_generator/mo_space.py:space_priority"]}
{"id": "C03", "title": "Equal indices hash equally", "statement": "If a == b for two Index objects then hash(a) == hash(b), so that sets and dictionaries of indices behave as sets of indices, for indices with canonical names (no leading zeros), which are the only ones the program generates. The unrestricted claim is false: == compares (space, number) while hash uses the name, so 'g1' == 'g01' but they hash differently.", "quantifier": "all pairs of valid index names", "why_tests_cant": "needs all pairs of names, including non-canonical numerals nobody writes in tests", "anchors": ["dsrg_generator/Index.py:Index.__eq__", "dsrg_generator/Index.py:Index.__hash__"]}
{"id": "C04", "title": "Spin flips are inverse and keep the orbital", "statement": "to_beta and to_alpha never fail, keep the number and the lower-cased space, and set the spin; to_alpha(to_beta(i)) == i for alpha i and to_beta(to_alpha(i)) == i for beta i; both are idempotent.", "quantifier": "all indices", "why_tests_cant": "law over an infinite type", "anchors": ["dsrg_generator/Index.py:Index.to_beta", "dsrg_generator/Index.py:Index.to_alpha", "dsrg_generator/Index.py:Index.is_beta"]}
{"id": "C05", "title": "Indices never holds a repeated index", "statement": "Building an Indices object succeeds iff every entry parses and no two entries denote the same index; spin-orbital Indices additionally require all entries lowercase. This holds for canonical names; the unrestricted claim is false for entries such as 'g1','g01' that are == but hash differently and are therefore both accepted.", "quantifier": "all lists of names and all index types", "why_tests_cant": "quantifies over all lists", "anchors": ["dsrg_generator/Indices.py:Indices.__init__", "dsrg_generator/Indices.py:IndicesSpinOrbital.__init__"]}
{"id": "C06", "title": "Iterating an Indices object visits every index once", "statement": "A for-loop over an Indices object visits its indices in order, each exactly once, as long as no other iteration over the same object is running. The claim for nested loops is false: __iter__ returns self with a shared cursor, so a nested double loop over one object visits only the pairs with the first index.", "quantifier": "all Indices objects and all interleavings of iterators over them", "why_tests_cant": "quantifies over all interleavings of next() calls", "anchors": ["dsrg_generator/Indices.py:Indices.__iter__", "dsrg_generator/Indices.py:Indices.__next__"]}
{"id": "C07", "title": "Merge sort returns the sorted list and the exact inversion count", "statement": "sort_and_count_inversions(array) returns a sorted permutation of the input and the exact number of pairs i<j with array[i] > array[j].", "quantifier": "all finite lists over any total order", "why_tests_cant": "unbounded list length", "anchors": ["dsrg_generator/Indices.py:sort_and_count_inversions", "dsrg_generator/Indices.py:merge_and_count_split_inversion"]}
{"id": "C08", "title": "Antisymmetric canonicalization sorts and returns the permutation parity", "statement": "canonicalize() of antisymmetric indices returns the sorted indices and the sign of the sorting permutation; reordering the input by any permutation gives the same sorted indices and a sign multiplied by the parity of that permutation; canonicalizing twice changes nothing and gives sign +1; non-antisymmetric indices are returned unchanged with sign 1. For any quantity antisymmetric under exchange of two indices, value(original) = sign * value(canonical).", "quantifier": "all duplicate-free index lists, all permutations, all antisymmetric valuations", "why_tests_cant": "all permutations of unbounded lists", "anchors": ["dsrg_generator/Indices.py:IndicesAntisymmetric.canonicalize", "dsrg_generator/IndicesPair.py:IndicesPair.canonicalize_indices", "dsrg_generator/Tensor.py:Tensor.canonicalize"]}
{"id": "C09", "title": "count_permutations gives a sign cocycle", "statement": "count_permutations(a,b) raises ValueError iff the index sets differ; otherwise it is the inversion number of the relabelling, 0 iff the two lists are identical, and the sign (-1)**count satisfies sign(a,b)*sign(b,c)=sign(a,c) and sign(a,b)=sign(b,a).", "quantifier": "all triples of index lists", "why_tests_cant": "all permutations of unbounded lists", "anchors": ["dsrg_generator/Indices.py:Indices.count_permutations", "dsrg_generator/Indices.py:Indices.is_permutation"]}
{"id": "C10", "title": "Indices, pairs and tensors are totally ordered consistently with ==", "statement": "For same-type Indices, IndicesPair/SecondQuantizedOperator and Tensor objects exactly one of <, ==, > holds, < is transitive, and <=, >= agree with them; Indices compare by size first; tensors by priority, name, size, upper, lower. Hence sorting a list of tensors yields a unique result independent of input order.", "quantifier": "all pairs/triples of objects", "why_tests_cant": "order laws over infinite types", "anchors": ["dsrg_generator/Indices.py:Indices.__lt__", "dsrg_generator/IndicesPair.py:IndicesPair.__lt__", "dsrg_generator/Tensor.py:Tensor.comparison_tuple"]}
{"id": "C11", "title": "Spin cases of spin-orbital indices are complete and duplicate-free", "statement": "generate_spin_cases() yields every alpha/beta labelling of the indices exactly once (2^n results); generate_spin_cases(k) yields exactly those with k beta indices, each once (binomial(n,k) results), and raises ValueError iff k is out of range.", "quantifier": "all spin-orbital index lists and all k", "why_tests_cant": "unbounded list length", "anchors": ["dsrg_generator/Indices.py:IndicesSpinOrbital.generate_spin_cases"]}
{"id": "C12", "title": "Spin cases of a pair are exactly the spin-conserving labellings", "statement": "generate_spin_cases(particle_conserving=True) on a pair yields exactly the labellings with equal numbers of beta upper and lower indices, each once; with False it yields all; the conserving option raises ValueError iff the numbers of upper and lower indices differ.", "quantifier": "all index pairs", "why_tests_cant": "unbounded", "anchors": ["dsrg_generator/IndicesPair.py:IndicesPair.generate_spin_cases_indices"]}
{"id": "C13", "title": "find_space_label inverts the space composition", "statement": "For every non-empty set of elementary spaces of one spin that is an intersection of known spaces, find_space_label returns the label whose composition is exactly that set; it raises ValueError exactly for the empty set and unknown labels. The documented claim for any set of space labels is false: {'c','v'} gives 'p', {'a','p'} gives None.", "quantifier": "all sets of space labels", "why_tests_cant": "finite but the claim must hold for every subset and every iteration order of the set", "anchors": ["dsrg_generator/mo_space.py:find_space_label", "dsrg_generator/mo_space.py:space_relation"]}
{"id": "C14", "title": "MOSpaceCounter comparison is a consistent order", "statement": "<, <=, >, >= on MOSpaceCounter form a total preorder by (overall scaling, virtual, core, active counts), and for dictionaries of non-zero counts of elementary spaces a == b agrees with neither a<b nor b<a. The last claim is false for general counters because == compares the raw input dictionary: two counters can be unequal and unordered, or equal and ordered.", "quantifier": "all counters", "why_tests_cant": "unbounded counts and arbitrary key sets", "anchors": ["dsrg_generator/mo_space.py:MOSpaceCounter"]}
{"id": "C15", "title": "Index downgrades keep exactly the non-zero orbital block", "statement": "For 1-body Cumulant, HoleDensity and Kronecker with same-spin indices, downgrade_indices returns '' iff the non-zero block is empty, otherwise the label whose elementary spaces are exactly: intersection of the two index spaces for Kronecker; that intersection without virtuals for Cumulant; without core for HoleDensity.", "quantifier": "all pairs of space labels of one spin and all index numbers", "why_tests_cant": "every label pair; used as a lemma for all terms", "anchors": ["dsrg_generator/Tensor.py:Cumulant.downgrade_indices", "dsrg_generator/Tensor.py:HoleDensity.downgrade_indices", "dsrg_generator/Tensor.py:Kronecker.downgrade_indices"]}
{"id": "C16", "title": "integer_partition enumerates all partitions exactly once", "statement": "For every n>=2, integer_partition(n) terminates, never indexes out of range, and yields every partition of n (non-increasing positive parts summing to n) exactly once, in reverse lexicographic order; integer_partition(0) raises IndexError. The claim for n=1 is false: integer_partition(1) yields nothing although [1] is a partition of 1.", "quantifier": "all n", "why_tests_cant": "termination and completeness of an in-place array algorithm for every n", "anchors": ["dsrg_generator/helper/integer_partition.py:integer_partition"]}
{"id": "C17", "title": "integer_separation lists all two-part splits", "statement": "integer_separation(n) is the list of all (i, n-i) with 1<=i<=n-1 in increasing i; with include_zero it is all (i, n-i) with 0<=i<=n.", "quantifier": "all n", "why_tests_cant": "all n", "anchors": ["dsrg_generator/helper/integer_partition.py:integer_separation"]}
{"id": "C18", "title": "check_max_cu clamps the cumulant level", "statement": "The effective cumulant level is the requested one when it is between 1 and M = max(1, min(#non-core/virtual creators, #non-core/virtual annihilators)), and M otherwise.", "quantifier": "all operator lists and all requested levels", "why_tests_cant": "unbounded operator lists", "anchors": ["dsrg_generator/sqop_contraction.py:check_max_cu"]}
{"id": "C19", "title": "Pairwise elementary contractions are exactly the allowed operator pairs", "statement": "The pairwise contractions of a list of operators are exactly: a one-body cumulant for each creator left of an annihilator (strictly earlier macro operator), neither virtual, spaces overlapping; and a hole density for each annihilator left of a creator, neither core, spaces overlapping; each listed once, under the key (creator's operator, annihilator's operator).", "quantifier": "all lists of spin-orbital operators", "why_tests_cant": "unbounded operator lists", "anchors": ["dsrg_generator/sqop_contraction.py:compute_elementary_contractions_pairwise"]}
{"id": "C20", "title": "Half-cumulant enumeration lists every k-subset of legs once", "statement": "For every list of macro operators and every 2<=k<=max_cu, the half-cumulant enumeration contains every k-element subset of the (operator, leg) positions exactly once, each in increasing order.", "quantifier": "all operator lists, all k", "why_tests_cant": "combines integer partitions, multiset permutations, combinations and products for every size", "anchors": ["dsrg_generator/sqop_contraction.py:compute_elementary_contractions_half_cumulant"]}
{"id": "C21", "title": "Many-body cumulant contractions are exactly the multi-operator leg choices", "statement": "For operators without repeated indices, the k-cumulants (2<=k<=max_cu) produced are exactly the choices of k creators and k annihilators without core/virtual indices whose legs do not all lie on one macro operator; each exactly once, filed under the key (operators of creators, operators of annihilators).", "quantifier": "all operator lists, all max_cu", "why_tests_cant": "unbounded", "anchors": ["dsrg_generator/sqop_contraction.py:compute_elementary_contractions_cumulant"]}
{"id": "C22", "title": "Contraction codes encode and decode bijectively", "statement": "For every categorized family of contractions (including empty categories) encode(c,s) is in 0..size-1, find_category(encode(c,s))=c, decode(encode(c,s)) is the s-th contraction of c; every code below size is the encoding of exactly one (c,s); category_range(c) is exactly the codes of c. Decoding a code from size on raises IndexError.", "quantifier": "all families of categories and all codes", "why_tests_cant": "round trip over unbounded families", "anchors": ["dsrg_generator/sqop_contraction.py:ElementaryContractionCategorized.encode", "dsrg_generator/sqop_contraction.py:ElementaryContractionCategorized.decode", "dsrg_generator/sqop_contraction.py:ElementaryContractionCategorized.find_category"]}
{"id": "C23", "title": "Compatibility maps are exactly disjointness", "statement": "Two different elementary contractions are recorded as compatible (in both directions) iff they share no creator and no annihilator; a contraction is never compatible with itself.", "quantifier": "all families of contractions", "why_tests_cant": "unbounded", "anchors": ["dsrg_generator/sqop_contraction.py:compute_compatible_elementary_contractions_list", "dsrg_generator/sqop_contraction.py:ElementaryContractionCategorized.compatible_elementary_contractions", "dsrg_generator/Tensor.py:Tensor.any_overlapped_indices"]}
{"id": "C24", "title": "General composite contractions are exactly the disjoint families", "statement": "The backtracking over elementary contractions yields every non-empty set of pairwise compatible elementary contractions whose number of contracted legs lies in the requested range, each exactly once, whatever order set.pop() chooses elements; and after exhaustion the caller's mutable arguments are restored.", "quantifier": "all compatibility relations, all ranges, all choices of set.pop", "why_tests_cant": "exponentially many sets and arbitrary pop order", "anchors": ["dsrg_generator/sqop_contraction.py:composite_contractions_backtrack"]}
{"id": "C25", "title": "Categorized composite contractions meet the target multiplicities exactly", "statement": "For a target multiset of categories, the categorized backtracking yields every set of pairwise compatible codes having exactly the target number of members in each category, each exactly once, for every pop order, and restores its mutable arguments.", "quantifier": "all targets, relations and pop orders", "why_tests_cant": "exponential search with pruning", "anchors": ["dsrg_generator/sqop_contraction.py:ElementaryContractionCategorized.composite_contractions_backtrack"]}
{"id": "C26", "title": "Macro backtracking only yields connected, non-pure-cumulant, feasible combinations", "statement": "Every combination of categories yielded for the commutator case connects all macro operators, contains at least one pairwise contraction, uses no more creators/annihilators of any operator than it has, and has a number of contracted legs in the requested range; no combination is yielded twice.", "quantifier": "all category lists, operator sizes and ranges", "why_tests_cant": "unbounded search", "anchors": ["dsrg_generator/sqop_contraction.py:contracted_operator_backtrack_macro", "dsrg_generator/sqop_contraction.py:_prune_available_contracted_operator"]}
{"id": "C27", "title": "Macro backtracking misses no connected combination", "statement": "For up to three operators every connected, feasible combination of categories within the range that contains a pairwise contraction is yielded. For four operators this is false: the element processed next is discarded for good when it does not touch the operators chosen so far, so chains whose sorted order is not connected step by step are lost.", "quantifier": "all operator lists", "why_tests_cant": "completeness of a pruned search", "anchors": ["dsrg_generator/sqop_contraction.py:contracted_operator_backtrack_macro", "dsrg_generator/sqop_contraction.py:compute_operator_contractions_connected"]}
{"id": "C28", "title": "Contraction sign does not depend on the enumeration order", "statement": "The sign attached to a composite contraction is the same for every order in which its elementary contractions are listed.", "quantifier": "all operator lists, all composite contractions, all orders", "why_tests_cant": "set iteration order is arbitrary", "anchors": ["dsrg_generator/sqop_contraction.py:process_composite_contractions", "dsrg_generator/sqop_contraction.py:process_composite_categorized"]}
{"id": "C29", "title": "Contraction sign is the anticommutation parity", "statement": "The sign is the parity of the permutation that brings the written operator string (creators, then annihilators reversed, operator by operator) into the order: contracted pairs/groups, then open creators, then open annihilators reversed. Equivalently for every antisymmetric multilinear product of the operators, product(original order) = sign * product(contracted order). Duplicate labels across operators are rejected.", "quantifier": "all operator lists and composite contractions", "why_tests_cant": "all permutations of unbounded strings", "anchors": ["dsrg_generator/sqop_contraction.py:process_composite_contractions", "dsrg_generator/sqop_contraction.py:generate_base_order_map"]}
{"id": "C30", "title": "Every operator leg is accounted for exactly once", "statement": "In each returned contraction, every creator/annihilator of the input appears exactly once: either in exactly one density (as upper/lower index) or in the open operator, whose indices are sorted; the number of open legs lies in [min_n_open, max_n_open].", "quantifier": "all operator lists and options", "why_tests_cant": "unbounded", "anchors": ["dsrg_generator/sqop_contraction.py:compute_operator_contractions_general", "dsrg_generator/sqop_contraction.py:process_composite_contractions"]}
{"id": "C31", "title": "Expanding hole densities preserves the value", "statement": "The signed sum over the expansions of a list of densities equals the product of the original list, in every commutative algebra over the rationals, whenever each hole density equals delta minus one-cumulant (and delta alone when an index is virtual).", "quantifier": "all density lists, all valuations in a commutative algebra over the rationals", "why_tests_cant": "2^n expansions, arbitrary values", "anchors": ["dsrg_generator/sqop_contraction.py:expand_hole_densities", "dsrg_generator/Tensor.py:HoleDensity.expand"]}
{"id": "C32", "title": "General contraction is the full Wick sum", "statement": "compute_operator_contractions_general returns, up to order, exactly one entry for every set of pairwise disjoint allowed elementary contractions (including the empty set) whose number of open legs lies in the requested range, with the right sign, densities and sorted open operator.", "quantifier": "all operator lists and options", "why_tests_cant": "end-to-end enumeration claim", "anchors": ["dsrg_generator/sqop_contraction.py:compute_operator_contractions_general"]}
{"id": "C33", "title": "Connected contraction is the connected part of the Wick sum", "statement": "For up to three operators, compute_operator_contractions_connected returns exactly those entries of the general contraction whose elementary contractions connect all operators and include at least one pairwise contraction, with the same sign, up to order. With four operators it misses some of them; what it returns is always among them.", "quantifier": "all lists of up to three operators (for the last part any number)", "why_tests_cant": "two different search procedures agree on all inputs", "anchors": ["dsrg_generator/sqop_contraction.py:compute_operator_contractions_connected", "dsrg_generator/sqop_contraction.py:compute_operator_contractions_general"]}
{"id": "C34", "title": "Discarded contractions cancel in a commutator", "statement": "For two operators with an even number of legs each, the uncontracted term and every pure-cumulant contraction of A*B occur in B*A with the same value, so dropping them does not change [A,B].", "quantifier": "all pairs of even operators, all antisymmetric valuations", "why_tests_cant": "all contractions", "anchors": ["dsrg_generator/sqop_contraction.py:compute_operator_contractions_connected", "dsrg_generator/phys_op_contraction.py:single_commutator"]}
{"id": "C35", "title": "Results do not depend on process scheduling", "statement": "For every number of worker processes and every completion order of the workers, contraction plus term combination returns the same terms with the same (exact-arithmetic) coefficients as the serial run.", "quantifier": "all schedules of imap_unordered", "why_tests_cant": "all interleavings", "anchors": ["dsrg_generator/sqop_contraction.py:compute_operator_contractions_general", "dsrg_generator/phys_op_contraction.py:canonicalize_contractions_batch", "dsrg_generator/phys_op_contraction.py:combine_terms"]}
{"id": "C36", "title": "combine_terms adds coefficients of identical terms", "statement": "combine_terms returns one term per distinct (tensors, operator) content whose coefficient is the sum of the input coefficients with that content, omits exactly those whose sum is below 1e-15 in magnitude, in sorted order, and the result does not depend on the input order.", "quantifier": "all lists of terms", "why_tests_cant": "unbounded lists", "anchors": ["dsrg_generator/phys_op_contraction.py:combine_terms", "dsrg_generator/Term.py:Term.hash_term", "dsrg_generator/Term.py:Term.is_void"]}
{"id": "C37", "title": "combine_terms leaves its arguments unchanged", "statement": "After combine_terms(terms) the coefficients of the terms passed in are unchanged, so calling it again gives the same result. False as stated: the last duplicate is updated in place. It holds for lists without duplicates; otherwise only the coefficient of the last object of each content is written.", "quantifier": "all lists of terms", "why_tests_cant": "aliasing property over all inputs", "anchors": ["dsrg_generator/phys_op_contraction.py:combine_terms", "dsrg_generator/Term.py:Term.coeff"]}
{"id": "C38", "title": "Term accepts exactly connected contents", "statement": "Term(tensors, op) succeeds iff every index that is not diagonal in some factor occurs exactly twice in total and every diagonal index occurs an even number of times; the stored tensors are sorted; next-index numbers exceed every used number.", "quantifier": "all tensor lists and operators", "why_tests_cant": "unbounded", "anchors": ["dsrg_generator/Term.py:Term.__init__"]}
{"id": "C39", "title": "Generated index names are fresh", "statement": "Every index generated during simplification differs from all indices of the term and from all previously generated ones.", "quantifier": "all terms and generation sequences", "why_tests_cant": "histories of generations", "anchors": ["dsrg_generator/Term.py:Term._generate_next_index", "dsrg_generator/Term.py:Term.simplify"]}
{"id": "C40", "title": "simplify preserves the value of the term", "statement": "For every term in which each index touches at most one density (as produced by operator contraction), simplify() does not change the value of the term: the sum over all orbital assignments of coefficient times product of tensors times operator is the same, for all orbital spaces and tensor values where Kronecker is the identity, one-cumulants vanish on virtuals and are the identity on core, and higher cumulants live on active orbitals; all-active amplitudes are zero. (Without the one-density-per-index condition, or for many-body cumulants over core or virtual indices, it is false.)", "quantifier": "all terms, all orbital spaces, all tensor values", "why_tests_cant": "semantic equality over all interpretations", "anchors": ["dsrg_generator/Term.py:Term.simplify", "dsrg_generator/Term.py:Term._downgrade_cumulant_indices", "dsrg_generator/Term.py:Term._remove_kronecker_delta"]}
{"id": "C41", "title": "canonicalize_simple preserves the value and uses minimal labels", "statement": "The relabelled term has the same value as the simplified one for all antisymmetric tensors, and its labels in each space are exactly 0..k-1.", "quantifier": "all terms without diagonal indices", "why_tests_cant": "semantic equality", "anchors": ["dsrg_generator/Term.py:Term.canonicalize_simple", "dsrg_generator/Term.py:Term._minimal_indices", "dsrg_generator/Term.py:Term._relabel_indices"]}
{"id": "C42", "title": "canonicalize preserves the value for every admissible answer of SymPy", "statement": "Whatever canonical permutation SymPy returns, as long as it is reached from the given one by relabelling dummies within a space, swapping the two positions of a dummy, exchanging equivalent tensors and applying the declared generators with their signs, the resulting term has the same value and its coefficient changes by a sign at most, for terms without diagonal indices whose operator has as many creators as annihilators. Without the last condition the claim is false: the slots are listed lower indices first but the declared symmetry of an operator permutes the first n_cre slots. An answer 0 raises TypeError. Terms with diagonal indices raise NotImplementedError.", "quantifier": "all terms, all oracle answers in the double coset, all tensors with the declared symmetry", "why_tests_cant": "semantic equality against an oracle", "anchors": ["dsrg_generator/Term.py:Term.canonicalize_sympy", "dsrg_generator/IndicesPair.py:IndicesPair.base_strong_generating_set"]}
{"id": "C43", "title": "Expanding composite indices partitions the sum", "statement": "For every term without diagonal operator indices the terms yielded by expand_composite_indices(False) add up to the original term: each assignment of orbitals to operator indices is covered by exactly one yielded term. With an index on both sides of the operator the claim fails (blocks are repeated).", "quantifier": "all terms and orbital spaces", "why_tests_cant": "semantic equality over all interpretations", "anchors": ["dsrg_generator/Term.py:Term.make_ddca", "dsrg_generator/Term.py:Term.expand_composite_indices"]}
{"id": "C44", "title": "make_ddca keeps exactly the requested blocks", "statement": "make_ddca(max_core,max_virt,single_ref) yields one term for exactly those elementary-space assignments of the operator indices with at most max_core core and max_virt virtual indices (and no active one if single_ref).", "quantifier": "all terms and thresholds", "why_tests_cant": "unbounded", "anchors": ["dsrg_generator/Term.py:Term.make_ddca"]}
{"id": "C45", "title": "contraction_paths enumerates all pairwise contraction orders", "statement": "For n tensors contraction_paths yields one entry for every sequence of pairwise merges, n!(n-1)!/2^(n-1) in total; every path is a binary tree containing each tensor once; its costs are the maxima over its merge steps.", "quantifier": "all terms", "why_tests_cant": "unbounded number of tensors", "anchors": ["dsrg_generator/Term.py:Term.contraction_paths", "dsrg_generator/Term.py:Term._contraction_path"]}
{"id": "C46", "title": "optimal_contraction_cost is the minimum over all paths", "statement": "No contraction path has a strictly lower computational (storage) cost than the reported one, and the reported path attains it.", "quantifier": "all terms with at least two tensors", "why_tests_cant": "minimum over factorially many paths", "anchors": ["dsrg_generator/Term.py:Term.optimal_contraction_cost", "dsrg_generator/Term.py:Term._contraction_cost"]}
{"id": "C47", "title": "Hamiltonian and cluster operators are well-formed for every rank", "statement": "hamiltonian_operator(k,start) and cluster_operator(k,start,...) construct valid terms for every k and start with coefficient 1/(k!)^2; index sets of operators generated with non-overlapping ranges are disjoint.", "quantifier": "all k and start", "why_tests_cant": "all sizes", "anchors": ["dsrg_generator/Term.py:hamiltonian_operator", "dsrg_generator/Term.py:cluster_operator"]}
{"id": "C48", "title": "Nested commutators expand binomially", "statement": "The nested commutator of level n>=1 built for the BCH expansion is [[..[A,B],..],B] with n copies of B and equals sum_k (-1)^k C(n,k) B^k A B^(n-k); the claim that level 0 is A is false: level 0 is built as [A,B] too.", "quantifier": "all levels, all associative algebras", "why_tests_cant": "all levels", "anchors": ["dsrg_generator/phys_op_contraction.py:sympy_nested_commutator_recursive", "dsrg_generator/phys_op_contraction.py:nested_commutator_cc"]}
{"id": "C49", "title": "Recursive BCH carries the factor 1/n!", "statement": "The n-th entry of the recursive commutator series is (1/n!) times the n-fold nested commutator, for every interpretation of terms in an (associative, not necessarily commutative) algebra under which the single-commutator routine returns 1/i times the commutator of its two terms at level i, provided the coefficients are whole multiples of a unit not below the zero threshold.", "quantifier": "all n, all bilinear commutators", "why_tests_cant": "induction on nesting level", "anchors": ["dsrg_generator/phys_op_contraction.py:bch_cc_rsc", "dsrg_generator/phys_op_contraction.py:recursive_single_commutator"]}
{"id": "C50", "title": "Permutation formats enumerate one representative per coset with its sign", "statement": "ambit_permute_format(part) yields, for a partition of the indices, every ordering that keeps the relative order inside each block, exactly once, with the sign of the permutation; n_multiset_permutation is their number n!/prod(block!) when all blocks have one spin. Combined with all permutations inside blocks they give every permutation exactly once.", "quantifier": "all index lists and partitions", "why_tests_cant": "all permutations of unbounded lists", "anchors": ["dsrg_generator/Indices.py:IndicesAntisymmetric.ambit_permute_format", "dsrg_generator/Indices.py:Indices.n_multiset_permutation"]}
{"id": "C51", "title": "Open-index partition is a partition by tensor and space", "statement": "For a valid term without diagonal indices, perm_partition_open splits the operator's creators (annihilators) into disjoint non-empty sorted blocks covering all of them; two indices share a block iff they sit on the same tensor and in the same space.", "quantifier": "all terms", "why_tests_cant": "unbounded", "anchors": ["dsrg_generator/Term.py:Term.perm_partition_open", "dsrg_generator/Term.py:Term._perm_part_atomic"]}
{"id": "C52", "title": "categorize_contractions loses and duplicates nothing", "statement": "Every input term lands in exactly one (space block, permutation) bucket, the one given by its operator spaces and permutation string, and each bucket is sorted.", "quantifier": "all lists of terms", "why_tests_cant": "unbounded", "anchors": ["dsrg_generator/phys_op_contraction.py:categorize_contractions"]}
{"id": "C53", "title": "Generated C++ driver applies the scale factor and declares its temporary", "statement": "The generated driver function zeroes every target, calls every block function, scales every target by `factor`, and declares `temp` before using it. (Zeroing and calls are proved. The other two parts are false: the factor has no effect on the results, and temp is used undeclared whenever add_t_dagger is set, destroy_h is not, and no term is a number.)", "quantifier": "all sets of term blocks and options", "why_tests_cant": "all generated programs", "anchors": ["dsrg_generator/write_forte_functions.py:save_terms_ambit_functions"]}
{"id": "C54", "title": "ChangeDir restores the working directory", "statement": "After a with-block on ChangeDir, whatever happens inside (normal end or exception), the working directory is the one in which the object was constructed, as long as that directory still exists. (It is not always the directory at entry: refuted when the directory changed between construction and entry.)", "quantifier": "all histories of directory changes", "why_tests_cant": "all histories", "anchors": ["dsrg_generator/helper/file_utils.py:ChangeDir"]}
{"id": "C55", "title": "Template substitution is simultaneous", "statement": "multi_gsub replaces each key by its value everywhere in the template; if, at every step, the key occurs only at its own places of the template, the result equals simultaneous substitution. (In general later keys also rewrite inserted values, and it is not enough that no value contains a key: both refuted. Backslashes in values are interpreted.)", "quantifier": "all templates, keys and values", "why_tests_cant": "all strings", "anchors": ["dsrg_generator/helper/file_utils.py:multi_gsub"]}
{"id": "C56", "title": "SpaceCounter can be constructed for two tensors of the same type", "statement": "SpaceCounter(t1,t2) succeeds for any two tensors of the same index type and counts shared indices per space. (False: the constructor reads an attribute that no longer exists and always raises; the counting is proved for the constructor with the attribute name corrected.) Its comparison methods form a total order consistent with ==.", "quantifier": "all pairs of tensors", "why_tests_cant": "all inputs", "anchors": ["SpaceCounter.py:SpaceCounter"]}
{"id": "C57", "title": "Declared tensor symmetries are the intended signed permutations", "statement": "The generators handed to SymPy for a pair of n upper and n lower indices generate exactly: independent permutations of upper and lower positions with the product of their parities as sign, plus the upper-lower swap when Hermitian (antisymmetric case); simultaneous permutations of pairs, plus the swap when Hermitian, always with sign + (non-antisymmetric case).", "quantifier": "all n", "why_tests_cant": "group generation for every n", "anchors": ["dsrg_generator/IndicesPair.py:IndicesPair.asym_bsgs", "dsrg_generator/IndicesPair.py:IndicesPair.sym_bsgs"]}
{"id": "C58", "title": "Term text identifies the term", "statement": "Two terms over canonical index names and tensor names without '^' whose hash_term strings coincide have the same tensors (name and indices) and the same operator, so combine_terms merges only identical contents.", "quantifier": "all pairs of terms with ordinary tensor names", "why_tests_cant": "injectivity of a printer", "anchors": ["dsrg_generator/Term.py:Term.hash_term", "dsrg_generator/Tensor.py:Tensor.latex", "dsrg_generator/Indices.py:Indices.latex"]}
{"id": "C59", "title": "Singlet adaptation enumerates signed same-spin permutations", "statement": "generate_singlet_adaptation on a pair yields n_alpha! * n_beta! entries: the lower indices permuted within each spin in all ways, each once, with sign the product of the parities and the canonicalization sign.", "quantifier": "all spin-conserving pairs", "why_tests_cant": "unbounded", "anchors": ["dsrg_generator/IndicesPair.py:IndicesPair.generate_singlet_adaptation"]}
{"id": "C60", "title": "Printed index lists parse back", "statement": "For every Indices object, str(indices) and indices.ambit() are strings from which the constructor recovers exactly the same list of index names.", "quantifier": "all index lists", "why_tests_cant": "round trip over an infinite set of lists", "anchors": ["dsrg_generator/Indices.py:Indices.__repr__", "dsrg_generator/Indices.py:Indices.ambit", "dsrg_generator/Indices.py:Indices.__init__"]}
{"id": "C61", "title": "The recursion limit set for general contractions is too small", "statement": "compute_operator_contractions_general raises the recursion limit to the number n of elementary contractions when n>1000; the claim that this is enough is false: with at most n nested generator activations the enumeration of composite contractions always fails, while n+1 activations suffice.", "quantifier": "all lists of elementary contractions, pop orders and ranges", "why_tests_cant": "only shows for more than 1000 elementary contractions", "anchors": ["dsrg_generator/sqop_contraction.py:compute_operator_contractions_general", "dsrg_generator/sqop_contraction.py:composite_contractions_backtrack"]}
{"id": "C62", "title": "contract_terms returns the Wick expansion of the product", "statement": "For terms with no index in common, the terms returned by contract_terms have together the value of the coefficients times the sum over all orbitals of all tensors with the Wick expansion of the product of the operators (all sets of elementary contractions leaving min_n to max_n open legs; with for_commutator only the connected sets with a pair contraction), for all values of the tensors that are antisymmetric and respect the orbital occupations. With at most one non-empty operator the plain product is returned. The Hamiltonian and cluster operators of the package satisfy the hypotheses on terms.", "quantifier": "all lists of terms, all sets of orbitals, all tensor values, all pool schedules and SymPy answers", "why_tests_cant": "value of symbolic output for all tensors and orbital sets", "anchors": ["dsrg_generator/phys_op_contraction.py:contract_terms", "dsrg_generator/phys_op_contraction.py:contraction_canonicalization_batch"]}
{"id": "C63", "title": "single_commutator returns the commutator", "statement": "The terms returned by single_commutator(a,b) have together the value of the difference of the Wick expansions of ab and ba times scale factor and coefficients; this value does not depend on for_commutator, expand_hole, the number of processes, hermitian or the choices of the sets. If one of the operators is empty it is zero.", "quantifier": "all pairs of terms with no index in common, all orbitals, all tensor values", "why_tests_cant": "value of symbolic output for all tensors; cancellation of infinitely many dropped contractions", "anchors": ["dsrg_generator/phys_op_contraction.py:single_commutator", "dsrg_generator/phys_op_contraction.py:contract_terms"]}
{"id": "C64", "title": "Generated C++ functions compute the terms", "statement": "The texts written by save_terms_ambit_functions are programs; run with arrays that hold the tensors, every result array Cn, read as the operator 1/(n!n!) sum Cn[a,c] {c^+ a}, equals the sum of the given terms with n creators and n annihilators, and no other array changes. The antisymmetrizing copies of temp, the reuse and clearing of temp between permutation groups and the printed coefficients are all included. Definitions, declarations and calls agree in their parameters, a double for C0 and a BlockedTensor for every other array; the main function has one for each array of the terms and each result. With add_t_dagger the transposed arrays are added in place (if destroy_h applies or C0 is a target).", "quantifier": "all lists of spin-orbital terms with tensors, all orbital spaces and array contents", "why_tests_cant": "the generated programs and their inputs are unbounded", "anchors": ["dsrg_generator/write_forte_functions.py:save_terms_ambit_functions", "dsrg_generator/write_forte_functions.py:save_terms_blocks_ambit_function", "dsrg_generator/Term.py:Term.ambit", "dsrg_generator/SQOperator.py:SecondQuantizedOperator.ambit_permute_format"]}
{"id": "C65", "title": "Operator generators have the intended values", "statement": "hamiltonian_operator(k) is 1/(k!k!) sum H[q,p] {p^+ q} over all orbitals; cluster_operators is the sum over the levels of T_k, minus the de-excitations T_k^+ if unitary, T_k = 1/(k!k!) sum T[h,p] {p^+ h} over core and virtual orbitals in the single-reference case and holes and particles otherwise. The values do not depend on the starting number.", "quantifier": "all levels, starting numbers, orbital spaces and tensor values", "why_tests_cant": "values for all levels and orbital sets", "anchors": ["dsrg_generator/Term.py:hamiltonian_operator", "dsrg_generator/Term.py:cluster_operator", "dsrg_generator/phys_op_contraction.py:cluster_operators"]}
{"id": "C66", "title": "make_excitation projects on excitations", "statement": "term.make_excitation(single_ref) returns a term with the value of the part of the input in which all creators are particle (virtual if single_ref) and all annihilators hole (core) orbitals; nothing is kept if all operator indices are active. (False in two respects: excitations labelled by beta indices are always thrown away, and the result may be an operator with active indices only, which the function itself refuses as input.)", "quantifier": "all constructed terms without diagonal indices, all orbital spaces and tensor values, all SymPy answers", "why_tests_cant": "value of symbolic output for all tensors; no tests exist (test_make_excitation is empty)", "anchors": ["dsrg_generator/Term.py:Term.make_excitation", "dsrg_generator/SQOperator.py:SecondQuantizedOperator.is_possible_excitation"]}
{"id": "C67", "title": "Diagonal parts and zeroth-order Hamiltonians", "statement": "make_one_body_diagonal returns terms that add up to the part of the input in which creator and annihilator lie in the same space (without active orbitals if single_ref). diagonal_fock_operator is this part of the one-body Hamiltonian, dyall_hamiltonian adds the active two-body part, fink_hamiltonian the part of the two-body Hamiltonian in which creators and annihilators have the same spaces, each as often.", "quantifier": "all orbital spaces and tensor values, all SymPy answers", "why_tests_cant": "values for all orbital sets; no tests exist", "anchors": ["dsrg_generator/Term.py:Term.make_one_body_diagonal", "dsrg_generator/Term.py:diagonal_fock_operator", "dsrg_generator/Term.py:dyall_hamiltonian", "dsrg_generator/Term.py:fink_hamiltonian"]}
{"id": "C68", "title": "Commutator series have the right value at every level", "statement": "The lists returned by bch_cc_rsc(n, ...) have the values of the terms of the Baker-Campbell-Hausdorff series: the first is the one- and two-body Hamiltonian over core and virtual orbitals, and list i has the value 1/i times the sum of the commutators (differences of Wick expansions, truncated as asked) of all terms of list i-1 with all amplitudes of cluster_operators, whose index numbers do not collide with earlier ones. Every returned term is again a valid term. The same holds with factor 1 for recursive_single_commutator on terms with spaced index numbers. (False in one respect: with single_reference=False the Hamiltonian is still expanded over core and virtual indices only, so all parts with active indices are missing.)", "quantifier": "all nesting levels, cluster levels, truncations, switches, orbital spaces and tensor values, all pool schedules and SymPy answers; coefficients above the 1e-15 cutoff: 4 n! (m!)^(2n) <= 10^15 for cluster levels up to m", "why_tests_cant": "unbounded nesting; value of symbolic output for all tensors; index collisions between levels", "anchors": ["dsrg_generator/phys_op_contraction.py:bch_cc_rsc", "dsrg_generator/phys_op_contraction.py:recursive_single_commutator", "dsrg_generator/phys_op_contraction.py:cluster_operators"]}
{"id": "C69", "title": "gradient_t is the derivative with respect to the amplitudes", "statement": "For every closed term, the terms returned by gradient_t add up to the first-order change of the value of the term when every amplitude T[h,p] is shifted by eps {p+ h}; there is one returned term for every cluster amplitude, repeated amplitudes included. Terms with a non-empty operator are refused with NotImplementedError.", "quantifier": "all constructed closed terms without diagonal indices, all orbital spaces and tensor values, all SymPy answers", "why_tests_cant": "value of symbolic output for all tensors; no tests exist", "anchors": ["dsrg_generator/Term.py:Term.gradient_t"]}
{"id": "C70", "title": "Singlet adaptation keeps the value of a term", "statement": "For a spin-integrated term whose creators all have one spin and whose annihilators all have one spin (in particular closed terms and one-body operators), the terms yielded by generate_singlet_adaptation, evaluated with spin-free tensors and spin-summed operators, add up to the value of the spin-integrated term. For other operators the sum is off by the number of orderings of the operator that keep the spins in place divided by the number of all orderings, so a two-body operator with mixed spins loses a factor. Other index types are rejected with TypeError.", "quantifier": "all systems with paired alpha and beta orbitals, all spin-free values with the symmetries of spin-free tensors, all terms without diagonal indices, all iteration orders of the index set, both settings of alpha_major", "why_tests_cant": "The identity concerns values for every orbital space and every tensor, with sums over permutations of any length; tests compare printed terms for a few operators.", "anchors": ["dsrg_generator/Term.py:Term.generate_singlet_adaptation", "dsrg_generator/IndicesPair.py:IndicesPair.generate_singlet_adaptation"]}
{"id": "C71", "title": "Canonicalization of well-formed terms raises no exception of its own", "statement": "Let a term be constructed from factors that pass the checks of their class, have as many upper as lower indices (at least one), with one class per name, no two densities sharing an index, every index running from an upper or creation position to a lower or annihilation position, density indices that share a non-virtual space, delta indices that share a space, no general indices on amplitudes, and at least one factor that is more than a delta. Then simplify returns a term, and canonicalize returns a term unless SymPy itself raises (the exception is passed on) or answers 0 (TypeError).", "quantifier": "all such terms of the three index types, all settings of simplify_core_cumulant, remove_active_amplitudes and hermitian_tensors, all SymPy answers within the declared symmetries", "why_tests_cant": "Absence of exceptions for every content, with any number of factors and any chain of deltas; tests try a few terms.", "anchors": ["dsrg_generator/Term.py:Term.simplify", "dsrg_generator/Term.py:Term.canonicalize", "dsrg_generator/Term.py:Term.canonicalize_sympy", "dsrg_generator/Tensor.py:Tensor.downgrade_indices"]}
{"id": "C72", "title": "The spin cases of a term add up to the term", "statement": "For a well-formed spin-orbital term (conditions of C71) the spin-integrated terms yielded by generate_spin_cases_naive, with alpha indices running over alpha and beta indices over beta orbitals, add up to the value of the spin-orbital term, whose indices run over the orbitals of both spins, whenever the tensors conserve spin. Every yielded term is spin-integrated and has the coefficient of the term up to sign (or zero). No exception is raised if SymPy always answers. Other index types are rejected with TypeError, operators with different numbers of creators and annihilators with ValueError. ValueErrors raised by SymPy are swallowed and the terms are lost.", "quantifier": "all constructed spin-orbital terms without diagonal indices that meet the conditions, all orbital spaces with alpha and beta orbitals, all spin-conserving antisymmetric hermitian values, all SymPy answers within the declared symmetries", "why_tests_cant": "The sum runs over all consistent spin labellings of any number of indices, and ValueErrors are used for control flow, so that an unexpected one silently drops a term; tests compare a few printed cases.", "anchors": ["dsrg_generator/Term.py:Term.generate_spin_cases_naive", "dsrg_generator/Tensor.py:Tensor.generate_spin_cases", "dsrg_generator/SQOperator.py:SecondQuantizedOperator.generate_spin_cases"]}
{"id": "C73", "title": "Contractions and commutators raise no exception of their own", "statement": "contract_terms, single_commutator, linear_commutator and recursive_single_commutator return, or pass on an exception of SymPy (TypeError if SymPy answers 0), for all spin-orbital terms with standard operators, no indices in common, consistent tensor names, tensors with as many upper as lower indices (at least one, all different), no deltas, densities over active or (one-body) hole indices, and amplitudes without general indices; the returned terms are of the same kind, so they can be contracted again. All Hamiltonian and cluster operators of rank one or more are such terms. bch_cc_rsc returns for every nesting level and all cluster levels of at least one. (Terms with a tensor without indices are not accepted: the product of H, T and a zero-body Hamiltonian raises ValueError.)", "quantifier": "any number of terms, nesting levels and cluster levels; all truncations, switches, set iteration orders, pool schedules and SymPy answers within the declared symmetries; no bound on coefficients", "why_tests_cant": "Absence of exceptions through unboundedly many nested contractions, whose intermediate terms no test enumerates.", "anchors": ["dsrg_generator/phys_op_contraction.py:contract_terms", "dsrg_generator/phys_op_contraction.py:single_commutator", "dsrg_generator/phys_op_contraction.py:recursive_single_commutator", "dsrg_generator/phys_op_contraction.py:bch_cc_rsc"]}
{"id": "C74", "title": "Contracted terms stand for products and commutators of operators", "statement": "Read a term as an operator: coefficient times the sum over all orbitals of its tensors times the normal product of its creators and annihilators, where normal products are strings of anticommuting fermion operators with all contractions (densities, hole densities and cumulants) subtracted. Then the terms returned by contract_terms add up to the product of the given operators in the given order, and the terms returned by single_commutator add up to their commutator a b - b a; with min_n_open and max_n_open the normal products with other numbers of open indices are removed, with 0 and 0 the value is the expectation value of the product. This holds for any for_commutator in single_commutator, expand_hole, number of processes and hermitian_tensors.", "quantifier": "all lists of terms with standard operators and no common indices, all orbital spaces, all densities, cumulants up to the given level and antisymmetric tensors, every algebra with fermion operators for the orbitals, all pool schedules and SymPy answers", "why_tests_cant": "An identity between operators on a space of any dimension (the generalized Wick theorem) for arbitrarily many factors; the code only handles index symbols, and tests compare them with printed results.", "anchors": ["dsrg_generator/phys_op_contraction.py:contract_terms", "dsrg_generator/phys_op_contraction.py:single_commutator", "dsrg_generator/sqop_contraction.py:compute_operator_contractions"]}
{"id": "C75", "title": "The commutator series are the Baker-Campbell-Hausdorff series of operators", "statement": "Read terms as operators as in C74. Then the lists returned by bch_cc_rsc stand for the one- and two-body Hamiltonian over core and virtual orbitals and, level by level, for 1/i times the commutator of the list before with T (or T - T^+), without the normal products whose number of open indices is out of range; if the ranges leave nothing out, list i is 1/i! times the i-fold commutator. recursive_single_commutator returns the nested commutators of its terms. nested_commutator_cc with for_commutator=False returns 1/n! times the n-fold commutator of H1 + H2 with T (or T - T^+). With for_commutator=True, its default, it returns the same for n = 1 and n = 2, although the connected contractions alone do not give the single products; from three nested commutators on it is wrong, because contractions that connect four operators in a ring are not generated.", "quantifier": "all nesting and cluster levels with 4 n! (m!)^(2n) <= 10^15, all orbital spaces, densities, cumulants up to the given level and antisymmetric tensors, every algebra with fermion operators for the orbitals, all truncation ranges, pool schedules and SymPy answers", "why_tests_cant": "An identity between operators on a space of any dimension, for series of any length whose intermediate terms number in the thousands.", "anchors": ["dsrg_generator/phys_op_contraction.py:bch_cc_rsc", "dsrg_generator/phys_op_contraction.py:recursive_single_commutator", "dsrg_generator/phys_op_contraction.py:nested_commutator_cc"]}
{"id": "C76", "title": "linear_commutator is the commutator of sums of operators", "statement": "Read terms as operators as in C74. Then the terms returned by linear_commutator(left_terms, right_terms, scale_factor, min_n_open, max_n_open, ...) add up to scale_factor times the commutator of the sum of the left operators with the sum of the right operators, without the normal products whose number of open indices is out of range. linear_commutator_amp returns in the same way the commutator of the sum of the left operators with T (or T - T^+) of the given cluster levels, provided the index numbers of the left terms are below start.", "quantifier": "any number of left and right terms with standard operators, no common indices and coefficients that stay above the cut-off, all cluster levels, scale factors and ranges, all orbital spaces, densities, cumulants up to the given level and antisymmetric tensors, every algebra with fermion operators, all pool schedules and SymPy answers", "why_tests_cant": "An identity between operators on a space of any dimension, for sums of any length; like terms of different pairs are merged, cancelled and dropped by text.", "anchors": ["dsrg_generator/phys_op_contraction.py:linear_commutator", "dsrg_generator/phys_op_contraction.py:linear_commutator_amp"]}
{"id": "C77", "title": "The LaTeX form of a term stands for the term", "statement": "Term.latex(permute_format=True) prints the coefficient divided by the number n of orderings, the permutation symbols with the blocks of the creators and annihilators, the tensors and the operator. Read as the signed sum over all orderings that keep the order inside the blocks, the line stands for the operator of the term (antisymmetric index types, denominators up to 10^9). For spin-adapted terms both formats agree. Without permute_format, the text (also repr, and what the hash is taken of) determines the tensors, the operator and the coefficient. print_terms_latex prints every given term exactly once, terms with the same operator spaces in one align environment and other terms in another one. It does not give every term a row of its own: the last term of each permutation group lacks the row separator, although other groups follow in the same environment.", "quantifier": "all constructed terms without diagonal indices and with distinct operator indices, all switches, all orbital spaces, antisymmetric tensors and algebras with fermion operators; all lists of terms of one index type", "why_tests_cant": "The printed formula is compared with an operator identity over all orderings and all orbital values; tests compare strings.", "anchors": ["dsrg_generator/Term.py:Term.latex", "dsrg_generator/SQOperator.py:SecondQuantizedOperator.latex_permute_format", "dsrg_generator/phys_op_contraction.py:print_terms_latex"]}
{"id": "C78", "title": "Equality, order and hash of terms", "statement": "t == t' for terms of one index type exactly if the coefficients are close (relative 10^-9 or absolute 10^-15) and operators and tensors agree; != is its negation; == is reflexive and symmetric. Terms of different types are unequal if the coefficients are not close and raise TypeError otherwise. Unequal terms are in exactly one of the orders < and >; with equal coefficients equal terms are in neither and have the same hash. With close but different coefficients, equal terms can have different hashes and be in the order <, and == is not transitive.", "quantifier": "all terms (exact arithmetic)", "why_tests_cant": "A relation on all pairs and triples of terms; the contract between == and hash fails only on special coefficients.", "anchors": ["dsrg_generator/Term.py:Term.__eq__", "dsrg_generator/Term.py:Term.__ne__", "dsrg_generator/Term.py:Term.almost_equal", "dsrg_generator/Term.py:Term.__lt__", "dsrg_generator/Term.py:Term.__hash__"]}
{"id": "C79", "title": "The code printed by print_terms_ambit computes the terms", "statement": "For terms that can be coded, print_terms_ambit prints (and does not raise), and its lines, run as statements where a BlockedTensor temp is declared, change no arrays but C0, C1, ... and add to each Cn an array whose operator is the sum of the given terms with n creators and n annihilators. The printed lines do not declare temp: where it is not declared the code of a term with permutations does not run.", "quantifier": "all lists of spin-orbital terms without diagonal indices, with as many creators as annihilators, coefficients with denominators up to 10^9 and array names different from C0, C1, ...; all orbital spaces, antisymmetric tensors and arrays holding them", "why_tests_cant": "The meaning of printed program text for all inputs and all array contents; tests would compare strings.", "anchors": ["dsrg_generator/phys_op_contraction.py:print_terms_ambit", "dsrg_generator/Term.py:Term.ambit"]}
{"id": "C80", "title": "save_direct_t3 writes a function that accumulates the three-body terms in C3", "statement": "For categorize_contractions(terms)['cccvvv'], a function name and a namespace without backslashes and template words, save_direct_t3 writes the file <func_name>_direct_t3.cc: the template with the lower-case header, the names, the sorted arrays of the terms as arguments, and code. Run with its arguments, C3 zero and temp built by the template, the code leaves the arguments as they are, reads no other arrays, and makes C3 the sum of the given terms with three core annihilators and three virtual creators. It does not raise if all tensors have as many upper as lower indices.", "quantifier": "all lists of spin-orbital terms that can be coded, all names, orbital spaces, antisymmetric tensors, arrays holding them, and contents of temp", "why_tests_cant": "The meaning of generated program text, for all inputs and array contents.", "anchors": ["dsrg_generator/write_forte_functions.py:save_direct_t3", "dsrg_generator/forte_templates/direct_t3_template"]}
{"id": "C81", "title": "diagonal_hessian_t differentiates the residual with respect to the amplitude", "statement": "An element of the array of a term (its operator's indices fixed to orbitals, the other indices summed), with the amplitude of n creators and n annihilators nudged by eps in the element of the same orbitals, changes in first order by eps times the element of the coefficient, tensors and operator that diagonal_hessian_t returns. This needs the operator's indices that sit on the amplitude to sit at their own places and the spaces to agree; for operator indices at other places on the amplitude it is false. What it returns is a tuple, never a Term; two amplitudes raise NotImplementedError; without amplitude the result is zero.", "quantifier": "all constructed terms with as many creators as annihilators (for the tuple: distinct operator indices that are not diagonal), all orbital spaces, elements, and tensors in any commutative algebra over the rationals", "why_tests_cant": "A derivative of a multilinear function of all tensor elements, for every choice of orbitals; tests could compare strings only.", "anchors": ["dsrg_generator/Term.py:Term.diagonal_hessian_t"]}
{"id": "C82", "title": "Several processes and any chunk size return the contractions of one process", "statement": "compute_operator_contractions with n_process > 1 yields the batches of n_process = 1 in another order (the uncontracted term first), and raises exactly if one process raises, for every order in which the pool finishes its chunks and every batch_size from 0. Hence it returns the entries of every allowed set of contractions, each set once. If one chunk takes all tasks the order is that of one process too. batch_size = 0 stands for a size from 1: for the general driver sqrt(N/n) rounded up (N pairs of equally many creators and annihilators), for the connected one 1 + sqrt(L)/n rounded down. Negative sizes yield no entries in the pools and are ignored by one process.", "quantifier": "all operators, limits, process and core counts from 1, chunk sizes, schedules and set orders (exact square roots)", "why_tests_cant": "Schedules of a process pool are not under the control of a test; the claim is about every completion order.", "anchors": ["dsrg_generator/sqop_contraction.py:compute_operator_contractions", "dsrg_generator/sqop_contraction.py:compute_operator_contractions_general", "dsrg_generator/sqop_contraction.py:compute_operator_contractions_connected", "dsrg_generator/sqop_contraction.py:estimate_batch_size"]}
{"id": "C83", "title": "Indices, pairs and tensors are built alike from all ways of writing the indices", "statement": "A list or tuple of names and Index objects, and a string of names with commas and blanks, build the same Indices: the indices in the order written, or ValueError for a repeated index (or an uppercase one in spin-orbital indices). The first bad entry decides: ValueError, but IndexError for an empty name. A pair or tensor needs both arguments to be of the same Python type, also if both write valid indices (TypeError); Indices objects are taken as they are, whatever type is named. Unknown type names are KeyErrors. A constructed tensor or pair clones to itself, with hc to the swapped pair. from_indices keeps the class, name and priority of the tensor and takes the indices written. a + b has the class of a; any_overlap tells whether there is a common index. Spin counts, alpha, beta and spin_pure describe the indices, for spin-integrated indices only; n_beta for all.", "quantifier": "all arguments (strings of any length and padding, lists, tuples, Indices of any class, other objects), type names and hash functions", "why_tests_cant": "All strings and argument types, for every hash function; tests take some spellings.", "anchors": ["dsrg_generator/Indices.py:Indices.__init__", "dsrg_generator/Indices.py:Indices.make_indices", "dsrg_generator/IndicesPair.py:IndicesPair.__init__", "dsrg_generator/IndicesPair.py:IndicesPair.clone", "dsrg_generator/Tensor.py:Tensor.__init__", "dsrg_generator/Tensor.py:Tensor.make_tensor", "dsrg_generator/Tensor.py:Tensor.clone", "dsrg_generator/Indices.py:Indices.__add__", "dsrg_generator/Indices.py:Indices.any_overlap", "dsrg_generator/Indices.py:IndicesSpinIntegrated"]}
{"id": "C84", "title": "simplify on terms with diagonal indices", "statement": "Term.simplify keeps the value of a term with diagonal indices (upper and lower on the same tensor or operator), if every index that is not diagonal sits on at most one density, at most once, and every Kronecker delta with a diagonal index (and every core density matrix, where these are simplified) has it as the first of its two indices in the order of indices, joined to an index that is not diagonal, and does not join a diagonal p to an h. The factors that remain are renamed alike, and each diagonal index then ranges over exactly the spaces that its own label and all densities on it have in common. Otherwise it is false: with the diagonal index second, with two diagonal indices on one delta, and with a diagonal p joined to an h, simplify changes the value.", "quantifier": "all constructed terms with well-formed tensors (indices of many-body cumulants including active orbitals), both settings of each option, all orbital spaces, and physical tensors in any commutative algebra over the rationals (without active amplitudes if these are removed)", "why_tests_cant": "A value summed over all orbitals for all tensors; the tests compare two terms by text, and the deltas tested have the diagonal index first.", "anchors": ["dsrg_generator/Term.py:Term.simplify", "dsrg_generator/Term.py:Term._downgrade_cumulant_indices", "dsrg_generator/Term.py:Term._add_replacement_diagonal", "dsrg_generator/Term.py:Term._remove_kronecker_delta"]}
{"id": "C85", "title": "The C++ code generated from a commutator series computes the commutators", "statement": "From the call of bch_cc_rsc (or nested_commutator_cc) to the arrays of the running C++ code: every list of terms they return with expand_hole=True can be printed. The functions written by save_terms_ambit_functions for the i-th list, started with arrays H1, H2, T1, ... holding the integrals and amplitudes, end, leave the other arrays as they are, and leave in C0, C1, ... the coefficients of 1/i! [..[H, A], .., A] (i commutators with the cluster operator A): the sum of the normal ordered operators with these coefficients is this operator. The lines of print_terms_ambit add the coefficients to C0, C1, ... . For nested_commutator_cc this holds for any number of commutators without for_commutator, and up to two with it; with limits on the operators for the part of the commutator that they keep.", "quantifier": "all cluster operators, levels, limits, set orders and pools with 4 n! (m!)^(2n) <= 10^9 (n commutators, m the highest level), all orbital spaces, antisymmetric tensors in any commutative algebra over the rationals, and all fermionic algebras with enough modes", "why_tests_cant": "An identity between operators and the meaning of generated program text, over all integrals, amplitudes, densities and orbital counts.", "anchors": ["dsrg_generator/phys_op_contraction.py:bch_cc_rsc", "dsrg_generator/phys_op_contraction.py:nested_commutator_cc", "dsrg_generator/phys_op_contraction.py:print_terms_ambit", "dsrg_generator/write_forte_functions.py:save_terms_ambit_functions"]}
{"id": "C86", "title": "Functions are written exactly for the tensors H1-H9 and T1-T9", "statement": "save_terms_ambit_functions returns, for terms that can be printed and whose tensors have as many upper as lower indices, exactly if every tensor is called H1, ..., H9 or T1, ..., T9 and no term has more than nine creators; otherwise it raises KeyError. The terms of bch_cc_rsc and nested_commutator_cc with single_reference=True and expand_hole=True have no cumulants left, so their functions are written whenever no term has ten creators; level i of the series has at most i m + 2 creators (m the highest cluster level). With the default single_reference=False one commutator already has the cumulant L1, and nothing can be written.", "quantifier": "all lists of printable terms, names, namespaces and flags; all cluster levels from 1 to 9, limits, set orders and pools with 4 n! (m!)^(2n) <= 10^9", "why_tests_cant": "The names that occur depend on which contractions survive for every level and every limit; the test writes one single-reference example.", "anchors": ["dsrg_generator/write_forte_functions.py:save_terms_ambit_functions", "dsrg_generator/write_forte_functions.py:save_terms_blocks_ambit_function", "dsrg_generator/phys_op_contraction.py:bch_cc_rsc", "dsrg_generator/phys_op_contraction.py:nested_commutator_cc"]}
{"id": "C87", "title": "A single-reference series is computed, written and evaluated without failure", "statement": "bch_cc_rsc with single_reference=True and expand_hole=True never fails, whatever the number of commutators, cluster levels (1 to 9), limits on cumulants and pool: it returns one list per level. For every level i with i m + 2 <= 9 (m the highest cluster level) save_terms_ambit_functions writes functions for the list, and running them on arrays with the integrals and amplitudes ends and leaves the coefficients of 1/i! [..[H, A], .., A] (i commutators) in the arrays C0, C1, .... No step is assumed to succeed.", "quantifier": "all cluster operators with levels 1 to 9, numbers of commutators n with 4 n! (m!)^(2n) <= 10^9, limits that keep all operators, set orders, pools, and answers of SymPy that are not 0; all orbital spaces, antisymmetric tensors in any commutative algebra over the rationals, and all fermionic algebras with enough modes", "why_tests_cant": "Termination without an exception of the whole path for every level, and the meaning of the generated text for all integrals; a test runs one case.", "anchors": ["dsrg_generator/phys_op_contraction.py:bch_cc_rsc", "dsrg_generator/write_forte_functions.py:save_terms_ambit_functions"]}
{"id": "C88", "title": "Like terms are merged: no two terms of a commutator are the same up to symmetry", "statement": "Call two terms the same up to symmetry if one renaming of the indices (keeping their orbital labels, different indices staying different), reordering of the upper and of the lower indices of every tensor and of the operator, exchange of upper and lower indices of tensors (if hermitian_tensor), and reordering of the tensors turns one into the other. This is an equivalence. If SymPy's canonicalize gives equal products the same answer up to the sign, then no two terms in the output of contract_terms (with two or more operators), single_commutator, linear_commutator, nested_commutator_cc, or of any level after the first of bch_cc_rsc are the same up to symmetry: the result has one term per class. This is not true if SymPy's answer is only some equal form.", "quantifier": "all products of constructed terms with unshared indices, consistent names and no Kronecker deltas, all levels, limits, flags, set orders and pools, any answers of SymPy that are within the declared symmetries and canonical; for bch_cc_rsc with for_commutator=True and 4 n! (m!)^(2n) <= 10^15", "why_tests_cant": "Which contractions coincide depends on every pair of the contractions of arbitrary operators; tests compare a few lists of terms.", "anchors": ["dsrg_generator/Term.py:Term.canonicalize_sympy", "dsrg_generator/phys_op_contraction.py:contract_terms", "dsrg_generator/phys_op_contraction.py:combine_terms", "dsrg_generator/phys_op_contraction.py:single_commutator", "dsrg_generator/phys_op_contraction.py:linear_commutator", "dsrg_generator/phys_op_contraction.py:bch_cc_rsc", "dsrg_generator/phys_op_contraction.py:nested_commutator_cc"]}
{"id": "C89", "title": "Canonical forms decide whether two terms are the same up to symmetry", "statement": "Term.canonicalize returns a term that is the same as the input up to symmetry (in the sense of C88), with the coefficient or its negative, unless it returns the void term; the result can be canonicalized again. If SymPy's canonicalize gives equal products the same answer up to the sign, two terms are the same up to symmetry exactly if their canonical forms have the same operator and the same tensors, and canonicalizing a canonical form again changes neither. The terms in the output of contract_terms (with two or more operators), single_commutator, linear_commutator, nested_commutator_cc, and of all levels after the first of bch_cc_rsc are in canonical form in this sense. The two indices of each one-body cumulant have to be of one space: otherwise the result has indices of other spaces.", "quantifier": "all constructed spin-orbital terms without Kronecker deltas and diagonal indices whose cumulants are over active (or, for one body, hole) indices, both settings of each option, and any answers of SymPy that are within the declared symmetries (and canonical, where stated)", "why_tests_cant": "An equivalence over all pairs of terms and all renamings; tests compare the text of single canonical forms.", "anchors": ["dsrg_generator/Term.py:Term.canonicalize", "dsrg_generator/Term.py:Term.canonicalize_sympy", "dsrg_generator/Term.py:Term.simplify"]}
{"id": "C90", "title": "Commutators are antisymmetric, additive and homogeneous in the terms returned", "statement": "If single_commutator(A, B, ..., scale_factor=s) returns, then single_commutator(B, A, ..., scale_factor=-s) returns the same terms with the same coefficients in the same order, and single_commutator(B, A, ..., scale_factor=s) the same terms with opposite coefficients; multiplying scale_factor by a number (contract_terms, single_commutator) multiplies the coefficients and changes nothing else. linear_commutator does not depend on the order of its two lists of terms; exchanging the lists negates the coefficients; and a list on the left or on the right can be cut into parts whose commutators, put together with combine_terms, are the commutator of the whole list, term by term.", "quantifier": "all spin-orbital terms whose tensors are named consistently and whose coefficients are multiples of a unit, the product of the units with scale_factor being at least 1e-15; all limits, flags, process counts and schedules; the same answers of SymPy and set orders for the same pair of terms", "why_tests_cant": "Identities between the returned lists for all pairs of terms and all scale factors; tests compare single commutators.", "anchors": ["dsrg_generator/phys_op_contraction.py:single_commutator", "dsrg_generator/phys_op_contraction.py:linear_commutator", "dsrg_generator/phys_op_contraction.py:contract_terms", "dsrg_generator/phys_op_contraction.py:combine_terms"]}
{"id": "C91", "title": "Series of commutators do not depend on processes, on the order of cluster_levels, nor on the order of SymPy's summands", "statement": "If bch_cc_rsc returns, it also returns with any other number of processes and processors and any order in which workers finish, and with cluster_levels in any other order: for every level the same terms with the same coefficients in the same order. The same holds for nested_commutator_cc, also when SymPy lists the summands of the expanded commutator in another order, and for linear_commutator_amp with cluster_levels in another order. recursive_single_commutator of any spin-orbital terms gives the same for any processes.", "quantifier": "all cluster levels and numbers of commutators with 4 n! (m!)^(2n) <= 10^15 (m the highest level), limits, flags, process counts and schedules; SymPy's canonicalize and the orders of sets being functions of what they are given (for the processes alone: any answers, the same in both runs); recursive_single_commutator: all terms whose tensors of one name agree in kind, the running products of coefficients being 0 or not below the threshold of vanishing terms", "why_tests_cant": "Schedules and the order of SymPy's summands are not under the control of a test, and the claim covers every level and every order of the arguments.", "anchors": ["dsrg_generator/phys_op_contraction.py:bch_cc_rsc", "dsrg_generator/phys_op_contraction.py:nested_commutator_cc", "dsrg_generator/phys_op_contraction.py:linear_commutator_amp", "dsrg_generator/phys_op_contraction.py:recursive_single_commutator", "dsrg_generator/phys_op_contraction.py:cluster_operators"]}
{"id": "C92", "title": "The fraction printed for a coefficient is a closest one, and rounding errors of doubles do not show", "statement": "limit_denominator(10^9), through which every coefficient is printed, gives a fraction with a denominator up to 10^9 such that no other such fraction is closer to the coefficient. It is exact for denominators up to 10^9 and otherwise off by at most 5e-10. If a coefficient is off from a fraction p by an error that, times the denominator of p, is below 5e-10 (a double next to -1/12, for example), then p itself is printed, in C++ and in LaTeX.", "quantifier": "all rational coefficients (every double is one) and, for the first claim, all bounds of at least 1", "why_tests_cant": "The continued fraction runs over unbounded integers; a test compares some coefficients.", "anchors": ["dsrg_generator/Term.py:Term.format_coeff"]}
{"id": "C93", "title": "composite_contractions needs its argument compatible; its default raises TypeError", "statement": "composite_contractions(target) without the argument compatible, documented as optional, raises TypeError as soon as one category of the target has an elementary contraction (the view target.keys() is sliced), also where compatible_elementary_contractions() leads to contractions; only if all these categories are empty does it give what it gives with that map. compatible_elementary_contractions(list of categories) relates exactly the contractions in these categories that share no index, and composite_contractions with the map for list(target.keys()) yields the same, in the same order, as with the map of all contractions.", "quantifier": "all families of elementary contractions, lists of categories, targets within them, and choices made by set.pop()", "why_tests_cant": "All callers in the code and the tests pass the map; the equivalence is for every target and every order in which sets are popped.", "anchors": ["dsrg_generator/sqop_contraction.py:ElementaryContractionCategorized.composite_contractions", "dsrg_generator/sqop_contraction.py:ElementaryContractionCategorized.compatible_elementary_contractions"]}
{"id": "C94", "title": "A process count below one never gives a wrong result", "statement": "contract_terms and single_commutator with n_process=0 raise ZeroDivisionError as soon as two terms carry operators, and with a negative n_process they raise ValueError whenever the contraction or commutator of operators has a result. Whatever they do return for n_process below one is what they return for any number of processes.", "quantifier": "all lists of terms (pairs for single_commutator), limits, flags, scale factors, integers n_process and numbers of processors", "why_tests_cant": "A claim about every argument, including those for which the contraction is empty; tests use one process.", "anchors": ["dsrg_generator/phys_op_contraction.py:contract_terms", "dsrg_generator/phys_op_contraction.py:canonicalize_contractions_batch", "dsrg_generator/phys_op_contraction.py:single_commutator"]}
