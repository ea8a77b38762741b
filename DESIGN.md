# Formal model of dsrg_generator in Rocq (Coq 8.16.1)

## Layout

* `rocq/theories/*Model.v`  – function-by-function models (no proofs); every definition cites `/repo` file:lines.
* `rocq/theories/*Spec.v`   – small independent specifications (when not simple enough to sit in the property file).
* `rocq/theories/*Proofs.v`, `*Value.v`, `*Loop.v`, `Ambit*.v` – lemmas.
* `rocq/theories/Prop*.v`   – the property theorems, each followed by `Print Assumptions` and concrete examples.
* `seeded/LOG.jsonl`        – record of seeded bugs and which theorems caught them.

| source | model | specification | lemmas | theorems |
|--------|-------|---------------|--------|----------|
| Index.py, string level of Indices.py | PyBase, IndexModel | (in PropIndex) | IndexProofs | PropIndex |
| Indices.py, IndicesPair.py: sorting, signs, orders, spin | IndicesModel | ParitySpec, OrderSpec | ParityProofs, OrderProofs, IterProofs, IndicesProofs, SpinProofs, SortProofs | PropIndices |
| mo_space.py, Tensor.downgrade_indices | SpaceModel | (in PropSpace) | SpaceProofs | PropSpace |
| helper/integer_partition.py | PartitionModel | PartitionSpec | PartitionProofs | PropPartition |
| sqop_contraction.py: elementary contractions | ElemModel | ElemSpec | ElemProofs, HalfProofs, CumulantProofs | PropElem |
| sqop_contraction.py: codes, backtracking | CodeModel, CompatModel | CompatSpec | CodeProofs, CompatProofs, BacktrackProofs | PropCode, PropCompat |
| sqop_contraction.py: category-level backtracking | MacroModel | MacroSpec | MacroProofs, ConnectProofs | PropMacro |
| sqop_contraction.py: drivers | WickModel | WickSpec, ValueSpec | WickProofs, DriverProofs, ConnectedProofs, ValueProofs, CommProofs | PropWick |
| Tensor.py, Term.py core | TermModel | TermSpec | TermProofs, SumProofs, RenameProofs, OperatorProofs, SimplifyProofs, SimplifyValue, FreshProofs, CanonProofs | PropTerm, PropSimplify, PropOperator |
| symmetries, Term.canonicalize_sympy | SymmetryModel | SymmetrySpec | SymmetryProofs, SympyProofs, SympyValue, SympyShape | PropSymmetry, PropCanon |
| merging of like terms (canonicalize_sympy with combine_terms) | SymmetryModel, CombineModel | MergeSpec | MergeMoves, MergeLabels, MergeGroups, MergeWords, MergeProofs, MergeClosed, MergeSeries, MergeDecide | PropMerge, PropDecide |
| Term.py: absence of exceptions in simplify and canonicalize | TermModel, SymmetryModel | ReturnSpec | ReturnProofs, SimplifyReturns | PropReturn |
| phys_op_contraction.py: absence of exceptions | CombineModel, BchModel | ContractReturnSpec, ReturnSpec | ContractReturns, SeriesReturns | PropContractReturn |
| Term.py: excitation and diagonal parts, H0 | ExciteModel | (in PropExcite) | ExciteProofs | PropExcite |
| Term.py: contraction paths | PathModel | PathSpec | PathProofs | PropPath |
| permutation formats, open partition, grouping, singlet | PermuteModel | PermuteSpec | PermuteProofs, OpenProofs, SingletProofs | PropPermute |
| phys_op_contraction.py: contract, combine, commutators | CombineModel, ProcessModel | CombineSpec, ContractSpec | CombineProofs, CombineValue, TextProofs, ScheduleProofs, BilinearProofs, ContractValue | PropCombine, PropSchedule, PropContract, PropBilinear, PropProcess |
| Term.py: generate_spin_cases_naive | SpinCaseModel | SpinCaseSpec | SpinCaseProofs | PropSpinCases |
| Term.py: generate_singlet_adaptation | SingletModel | SingletSpec | ArrangeProofs, SingletValue, SingletTerm | PropSinglet |
| Term.py: gradient_t | GradientModel | – | – | PropGradient |
| Term.py: diagonal_hessian_t | HessianModel | HessianSpec | HessianProofs | PropHessian |
| sqop_contraction.py: process pools | PoolModel | – | PoolProofs | PropPool |
| phys_op_contraction.py: terms as operators | CombineModel, WickModel | FockSpec, FamilySpec | ExtensionProofs, FamilyProofs, FamilySets, FockProofs, FockWick, FockValue, FockTerms, FockMatrix | PropFock |
| phys_op_contraction.py: BCH series | BchModel | BchSpec, LoopSpec, LevelSpec, SeriesSpec | BchProofs, TaskProofs, BchLoop, ClosureProofs, LevelProofs, SeriesProofs, SeriesOperator, NestedOperator, ConnectedFamilies, ConnectedForms, ConnectedFock, ConnectedWords, ConnectedTerms, SeriesOrder, NestedOrder, RecursiveOrder | PropBch, PropLoop, PropLevels, PropSeries, PropNested, PropSeriesOrder |
| phys_op_contraction.py: linear_commutator, linear_commutator_amp | CombineModel, LinearModel | FockSpec, SeriesSpec | (in PropLinear) | PropLinear |
| Term.ambit, write_forte_functions.py | AmbitModel | AmbitSpec | AmbitText, AmbitPerm, AmbitValue, AmbitMain, AmbitDriver, LimitProofs | PropAmbit, PropLimit |
| Term.py: latex, repr, equality; print_terms_latex | LatexModel | LatexSpec | LatexProofs | PropLatex, PropEqual |
| phys_op_contraction.py: print_terms_ambit; write_forte_functions.py: save_direct_t3; direct_t3_template | PrintModel | PrintSpec | PrintProofs, FillProofs, T3Proofs | PropPrint |
| Indices.py, IndicesPair.py, Tensor.py: constructors from raw arguments, clones, spins | ConstructModel | (in PropConstruct) | (in PropConstruct) | PropConstruct |
| from bch_cc_rsc and nested_commutator_cc to the generated code | (as above) | PipelineSpec | CodeTransport, PipelineCode, PipelineTerms, PipelineLevels | PropPipeline |
| which terms can be written, single-reference series | (as above) | (as above) | SingleProofs | PropWritten |
| the whole path from the call to the numbers | (as above) | (as above) | (as above) | PropTotal |
| Term.py: simplify with diagonal indices | TermModel | DiagonalSpec | SimplifyDiagonal | PropDiagonal |
| helper/file_utils.py, SpaceCounter.py | FileModel, CounterModel | (in PropFile) | FileProofs | PropFile |

## Conventions of the model

* Exceptions are values: `pyres A := Ok a | Raise e`.
* A Python set is a duplicate-free list; theorems about code that iterates a set or calls `set.pop`
  quantify over every order (an arbitrary choice function or an arbitrary permutation).
* Generators are the list of what they yield. An exception raised while one runs is an exception of the whole.
* Coefficients are exact rationals `Qc`. Python floats are idealised. The `1e-15` cut-off is kept exactly, and so is
  `Fraction(c).limit_denominator(10^9)`, which is transcribed from CPython's `fractions.py`.
* An index is modelled at two levels: as a string (`IndexModel`: parsing, printing, hashing) and, in the layers above,
  as the pair (space label, number). Names generated by the program are canonical (`f"{space}{number}"`), for
  which both levels agree (C01, C03).
* Python object identity matters in `combine_terms`, which writes to its arguments; there the model carries a store.
* The value of a term is a sum over assignments of orbitals to its indices. The orbital system (how many orbitals,
  their elementary spaces), the values of tensors and of operator strings, and the algebra they lie in are arbitrary.

## Models of library functions

* `itertools.product`, `combinations`, `permutations`, `accumulate`, `bisect_right`, `sorted` (stable), `str.join`,
  `str.split`, `str.isdigit` on ASCII: plain definitions of the documented result.
* `sympy.combinatorics.Permutation(l).inversions()`: the number of inverted pairs.
* `sympy.utilities.iterables.multiset_permutations`: the distinct rearrangements in lexicographic order.
* `sympy.combinatorics.tensor_can.canonicalize`: an arbitrary oracle. Its answers are constrained only by its
  documented contract (`admissible`): 0 when the symmetries force the tensor to vanish, or else a member of the
  double coset of slot symmetries and dummy relabellings. `PropCanon` shows an oracle meeting the contract.
  Only C88 and C89 also assume that equal products get the same answer up to the sign (`canonical`).
* `get_symmetric_group_sgs` and `bsgs_direct_product` are transcribed. `PermutationGroup.schreier_sims` and
  `get_minimal_bsgs` are trusted to keep the generated group.
* `Commutator(...).doit().expand()`: collected noncommutative polynomials with integer coefficients. Theorems do not
  depend on the order of the summands.
* `re.sub`: only for keys without metacharacters (literal replacement).
* `multiprocessing.Pool.imap_unordered`: the results in any order, for any batch size and number of workers.
* The C++ side (ambit): an assignment `A["ij"] += c * B["ik"] * C["kj"]` means the einsum of the arrays; a function
  sees only its arguments; `temp` is an array over the given spaces.

## Simplifications and parts not modelled

* Progress messages, timings and `make_so` look-ups of the cumulant helpers with their default values.
* `contract_terms` is modelled for the arguments its callers use; the driver's own process pools (modelled, C82) are not
  reached from it.
* Non-ASCII digits. `n_process < 1` is modelled for `contract_terms` and `single_commutator` (C94), not for the series and the driver's own pools.
* Of `save_direct_t3` the text is modelled, not the writing of the file; the fixed part of its template (denominators, norms) is text without a meaning in the model.
* Floating-point rounding; `isclose` is modelled on exact numbers.
* Test files and the notebooks.

## Plan per property

| id | modelled | proof idea |
|----|----------|------------|
| C01 | Index.__init__ on ASCII strings, latex/name printing | induction on decimal digits |
| C02 | Index comparison | (priority, number) lexicographic |
| C03 | Index hash as function of name | refutation witness g1/g01 + positive theorem for canonical names |
| C04 | to_alpha/to_beta | case analysis on labels |
| C05 | Indices constructor (set by hash+eq) | refutation witness; positive for canonical names |
| C06 | iterator protocol with shared cursor | state machine; witness for nested loops; single loop by induction |
| C07 | merge sort with counts | strong induction on length |
| C08 | canonicalize | inversion parity is multiplicative |
| C09 | count_permutations | same |
| C10 | comparison methods of Indices, pair, Tensor | lexicographic orders |
| C11, C12 | spin cases | product/combinations enumeration |
| C13, C15 | find_space_label, downgrade_indices | exhaustive over labels by computation inside a universally quantified theorem |
| C14 | MOSpaceCounter | lexicographic order; witnesses for == mismatch |
| C16, C17 | integer_partition as a state machine over the array, integer_separation | invariant + successor characterisation |
| C18-C21 | elementary contractions | membership characterisation + NoDup |
| C22, C23 | codes, compatibility | prefix sums; bisect_right |
| C24, C25 | backtracking as fuelled recursion with an arbitrary pop oracle | induction on the number of available elements |
| C26, C27 | macro backtracking | soundness by induction; completeness for <=3 operators; counterexample at 4 |
| C28, C29 | sign computation | inversion parity is a group morphism; even blocks commute |
| C30, C32, C33 | end-to-end contraction | composition of C19-C29 |
| C31 | expand_hole_densities | distributivity over Qc |
| C34 | commutator cancellation | sign of block swap |
| C35 | schedule | permutation invariance |
| C36, C37 | combine_terms with a heap of coefficients | fold invariants |
| C38, C39 | Term constructor | counting |
| C40, C41, C43 | simplify, canonicalize_simple, make_ddca with a denotational semantics of terms | sums over environments |
| C42 | canonicalize_sympy with oracle | semantics invariant under the documented group |
| C44 | make_ddca filter | membership |
| C45, C46 | contraction paths | induction on number of tensors |
| C47 | hamiltonian/cluster operators | label arithmetic |
| C48, C49 | commutator algebra | induction in a free algebra/any ring given as a record |
| C50, C51, C52 | permutation formats, open partition, categorisation | counting/bijection |
| C53 | code generation | witness |
| C54, C55 | ChangeDir, multi_gsub | state machine, string substitution |
| C56 | SpaceCounter | witness + order |
| C57 | BSGS generators | adjacent transpositions generate |
| C58 | printer injectivity | parsing back |
| C59 | singlet adaptation | enumeration |
| C60 | Indices printing and parsing | strings: split/join/strip round trip |
| C61 | _generate_compatible_contractions under a recursion limit | exact fuel: the number of nested activations |
| C62, C63 | contract_terms, single_commutator over whole terms | value of a product for given orbitals; C32/C33, C40, C42 composed |
| C64 | the text of the generated C++ functions | parse the text as a small language, run it on arrays |
| C65 | Hamiltonian and cluster operators | value as a sum over orbitals |
| C66, C67 | excitation and diagonal parts, zeroth-order Hamiltonians | sums restricted to blocks of spaces |
| C68 | values of the commutator series level by level | a class of terms closed under the commutator; induction over levels |
| C69 | gradient_t differentiates closed terms | values in dual numbers a + b eps; product rule for lists |
| C70 | singlet adaptation of terms keeps the value | spin-orbital values defined from spin-free ones by a signed sum over spin-conserving permutations; renaming to spatial orbitals; product of sums; number of permutations |
| C71 | canonicalization of well-formed terms returns | the two delta loops succeed if every delta has a common space; renamed indices keep their spin and narrow their space, so class checks still pass; balanced flow keeps the indices of one side distinct; every tensor SymPy returns within the symmetries is a permutation of the content, so reading it back succeeds |
| C72 | spin cases of a term add up to it | assignments over both spins split by the spins of the orbitals; labellings under which a tensor does not conserve spin vanish; tuples of the product for which the term constructor does not raise are the consistent labellings (each index occurs twice); balanced flow gives conservation on the operator; C71 excludes other ValueErrors |
| C73 | contractions and commutators raise nothing of their own | every entry of the Wick expansion, multiplied with the tensors of the terms, meets the conditions under which simplify returns (spaces of the densities from the contraction rules, flow replaced by apartness); these conditions are closed under contraction (with C68's closure lemmas) and combination; bch: start terms checked by computation, amplitudes from cluster_success |
| C74 | contracted terms stand for products and commutators of operators | normal products defined by subtracting all contractions; families of disjoint groups with signs; generalized Wick theorem by induction on strings; alternation of normal products from the anticommutation relations; the operators are values in the extension A + B of the scalars by the fermion algebra, so that C62 and C63 (true for every commutative algebra) apply; examples with Jordan-Wigner matrices for any number of modes |
| C75 | the commutator series are the BCH series of operators | C68 in the extension algebra of C74 turns every level into a commutator of operators; the Hamiltonian and amplitude terms are written out with C65; for nested_commutator_cc each product of C48 is a product of operators (C74), and the sum of the products is the nested commutator; for for_commutator=True and at most two levels, the families of contractions that are not connected are written as a form in the strings of the three operators (ConnectedForms), the form is symmetric enough for its nested commutator to vanish, and the sum over terms and words carries this over (ConnectedTerms); the failure with for_commutator=True at level 3 by computation with 8 x 8 matrices |
| C76 | linear_commutator is the commutator of sums of operators | C74 for every pair, bilinearity of the commutator, combine_terms keeps the sum (C63) because the coefficients are multiples of a visible unit; C75's amplitude operator for linear_commutator_amp |
| C77 | Term.latex, repr, print_terms_latex | text computed for any partition into blocks; counting orderings (C50) and reordering signs give the operator identity in the extension algebra (C74); hash text injectivity (C36) for repr; C52's categories for print_terms_latex; a two-term counterexample for the rows |
| C78 | Term.__eq__, __ne__, almost_equal, __lt__, __hash__ | extensionality and trichotomy of the orders (C14, C37), order lemmas for isclose on Qc; counterexamples with coefficients 2 and 2 + 10^-9 |
| C79 | print_terms_ambit: text and value | lines of a text (strip, drop empty ones); every group is the group of C64 with temp built anew; induction over the groups with one target array each |
| C80 | save_direct_t3: file and value | literal substitution step by step (a key cannot cross a character it does not contain); no backslashes in generated statements; groups of C64 with temp.zero() |
| C81 | diagonal_hessian_t | elements as sums over environments with the operator's indices pinned; the loop's three cases; splitting the amplitude factor by the pinned orbitals; an amplitude with exchanged indices as counterexample |
| C82 | process pools and chunk sizes of the drivers | a schedule is a permutation of the chunks; pymap of permuted tasks; C32 and C33 hold for every set order; Nat.sqrt and division for the sizes, combinations counted by Pascal's rule |
| C83 | constructors, clones and small methods on raw arguments | an inductive relation between an argument and the indices it writes; strip and split of padded pieces; then the constructors of TermModel, through which all other theorems speak, are the images |
| C84 | simplify on terms with diagonal indices | the loops as lists of events (which index is replaced by which); each diagonal index collects the intersection of the spaces of its events; the value by C40's argument with the diagonal indices kept apart; witnesses for each condition on the deltas |
| C85 | from commutator series to running C++ code | terms of commutators keep the shape that can be printed (regular, no hole densities, at least one tensor, denominators that divide 4 n! (m!)^(2n)); the code is run in the algebra of the operators (C64, C79), and running commutes with the embedding of the numbers; the n-body arrays add up to the operator of the terms (C75) |
| C86 | when functions are written | every step of the driver either returns or raises KeyError; the names of a block are those of its terms; for single-reference series an invariant of contractions: all legs of a contraction are on different operators and all but one operator have core and virtual indices only, so only Kronecker deltas and one-body cumulants of core orbitals occur, which simplify removes |
| C87 | the whole single-reference path succeeds | composition of C73 (the series returns), C86 (functions are written) and C85 (they compute the commutators); none of these steps is a hypothesis |
| C88 | no two terms of a result are the same up to symmetry | equal contents up to symmetry give SymPy forms that are equivalent up to the sign (labels by first occurrence, words moved by generators); so a canonical answer gives equal contents, which combine_terms merges; the property is carried through pools, batches, copies and levels |
| C89 | canonical forms decide sameness up to symmetry | simplify only renames the indices of such terms, keeping labels; the moves of SymPy's answer keep the relation, and equal words get equal answers (merged_canonical of C88) |
| C90 | commutators are antisymmetric, additive and homogeneous in the returned terms | BilinearProofs: the two contractions of a commutator are exchanged, so the lists given to combine_terms have the same sums of coefficients per kind of term, and the sums decide the combined list; scaling goes through contract_terms step by step |
| C91 | bch_cc_rsc, nested_commutator_cc, linear_commutator_amp and recursive_single_commutator under other schedules and orders | SeriesOrder, NestedOrder: at each level the list handed to combine_terms is a permutation of the other run's list up to copies, its coefficients are multiples of one unit, and combine_terms depends on the sums only; copies of terms that look the same are equal, so the next levels start from equal pools; RecursiveOrder: recursive_single_commutator makes no copies, but contractions depend on the visible parts of terms only |
| C92 | limit_denominator and the printed coefficients | LimitProofs: the loop keeps x = (p1 n + p0 d)/(q1 n + q0 d) with p1 q0 - p0 q1 = 1 or -1, and n d halves, so it ends before the fuel; the two candidates are neighbours around x, and a fraction with a denominator up to the bound is an integer combination of them with coefficients of opposite signs |
| C93 | the optional arguments of compatible_elementary_contractions and composite_contractions | a view of keys reaches the slice at the first non-empty category; the backtracking only asks the map about contractions it may still choose, so maps that agree on them give the same |
| C94 | contract_terms and single_commutator for every integer n_process, with the division by zero as an outcome | the loop over the batches raises at the first non-empty batch; with no contraction all numbers of processes return the empty list |

## Where the code does not do what it seems to promise

Each line is a theorem with a concrete witness (suffix `_refuted`). These are statements about the model; the code was not run.

* Indices: `g1` and `g01` are equal and hash differently (C03), so an `Indices` object can hold both (C05). Nested loops over
  one `Indices` object share a cursor (C06).
* `find_space_label` returns a wrong label or None for some sets (C13). `MOSpaceCounter` has `==` and `<` that disagree (C14).
  `integer_partition(1)` yields nothing (C16).
* Contractions: with four operators the connected driver misses contractions (C27, C33). `nested_commutator_cc` with its default
  arguments is therefore wrong from the third nested commutator on (C75). The recursion limit is one too small (C61).
* `combine_terms` writes to its arguments (C37). Terms with close coefficients can be equal with different hashes, and `==` is not
  transitive (C78). Tensor names with `^` make different terms print alike (C58).
* `simplify` changes the value if densities share an index or a many-body cumulant has core indices (C40), and for some deltas
  with diagonal indices (C84).
* `canonicalize` declares a wrong symmetry for operators with different numbers of creators and annihilators (C42).
* `expand_composite_indices` and `perm_partition_open` are wrong for diagonal operator indices (C43, C51).
* `n_multiset_permutation` overcounts with both spins (C50), and singlet adaptation loses a factor for mixed spins (C70).
* Level 0 of the nested commutators is built as level 1 (C48). `bch_cc_rsc` with `single_reference=False` drops the active parts of
  the Hamiltonian (C68). Tensors without indices are not accepted in products (C73).
* `make_excitation` throws away excitations labelled by beta indices and can return an operator with active indices only (C66).
  `diagonal_hessian_t` is wrong if the operator's indices are misplaced on the amplitude (C81).
* Generated code: `factor` has no effect and `temp` can be undeclared (C53, C79); terms without tensors print an
  incomplete statement, and a hole density `C1` has the name of the result `C1` (C64).
  `save_terms_ambit_functions` raises KeyError for every term with a cumulant, so multireference commutators cannot be written (C86). LaTeX rows lack separators (C77).
* `ChangeDir` returns to the directory at construction, not at entry (C54). `multi_gsub` rewrites inserted values and
  interprets backslashes (C55). `SpaceCounter` cannot be constructed (C56).

## Trusted base

* Coq's kernel (8.16.1). `coqchk` accepts the compiled files.
* `Print Assumptions` follows every theorem. Every theorem is "Closed under the global context", so no axiom
  is used, not even one of the standard library.
* The hand translation from Python to Gallina. Each definition cites its source lines.
* The models of library functions listed above.

No functor, module type, axiom, `Admitted` or disabled check is used.
