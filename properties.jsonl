{"id": "C01", "title": "check_permutation accepts exactly the bijections", "statement": "check_permutation(p) returns True iff the image tuple p of length n describes a bijection of {0..n-1} onto itself; everything else (repeats, out-of-range, negative entries) is rejected.", "quantifier": "every integer tuple of every length", "why_tests_cant": "infinitely many tuples; a sample cannot exclude an accepted non-bijection", "anchors": ["src/qnet/utils/permutations.py:check_permutation"]}
{"id": "C02", "title": "Permutations form a group under compose/invert, and permute applies them", "statement": "For valid p, invert_permutation(p) is a valid permutation that is a two-sided inverse under compose_permutations; compose is associative with identity range(n) and (compose(a,b))[j] = a[b[j]]; permute(s,p)[j] = s[p[j]], permuting by compose equals permuting twice, and permute raises ValueError on a length mismatch and BadPermutationError on a non-permutation, and on nothing else.", "quantifier": "all permutations of all sizes, all sequences of any element type", "why_tests_cant": "group laws quantify over all triples of permutations of every size", "anchors": ["src/qnet/utils/permutations.py:invert_permutation,compose_permutations,permute"]}
{"id": "C03", "title": "Disjoint-cycle decomposition is correct and in normal form", "statement": "For every valid non-empty p, permutation_to_disjoint_cycles(p) terminates and returns cycles that are pairwise disjoint, cover {0..n-1}, follow p (consecutive elements are images, last maps to first), each start with their smallest element, and are ordered by that element; permutation_from_disjoint_cycles rebuilds p exactly. Invalid tuples raise BadPermutationError.", "quantifier": "every permutation of every size", "why_tests_cant": "loop invariant over an unbounded while-loop; the number of permutations grows factorially", "anchors": ["src/qnet/utils/permutations.py:permutation_to_disjoint_cycles,permutation_from_disjoint_cycles"]}
{"id": "C04", "title": "Block decomposition of permutations is exact and finest", "statement": "For every valid non-empty p, permutation_to_block_permutations(p) returns a list of valid permutations whose concatenation (permutation_from_block_permutations) is p, and no returned block can itself be split into two non-empty concatenated permutations; the internal assertions never fire.", "quantifier": "every permutation of every size", "why_tests_cant": "requires universally quantified maximality (no finer decomposition exists)", "anchors": ["src/qnet/utils/permutations.py:permutation_to_block_permutations,permutation_from_block_permutations,concatenate_permutations"]}
{"id": "C05", "title": "Block permutation expansion and factorisation", "statement": "full_block_perm(b, s) is the permutation of all sum(s) channels that moves block k as a whole (order inside preserved) to position b[k]; block_perm_and_perms_within_blocks(p, s) returns a valid block permutation and valid within-block permutations, ordered by the blocks' minimal images, and if p maps blocks onto contiguous blocks then p is exactly the composition of full_block_perm with the concatenated within-block permutations.", "quantifier": "every permutation and every composition of its length into positive block sizes", "why_tests_cant": "joint quantification over permutations and block structures", "anchors": ["src/qnet/utils/permutations.py:full_block_perm,block_perm_and_perms_within_blocks"]}
{"id": "C06", "title": "map_channels routes exactly as requested", "statement": "map_channels(mapping, n) succeeds iff all keys/values are channel numbers < n and no two keys share a value (otherwise ValueError); the resulting circuit sends input k to mapping[k] for every mapped k, and the relative order of all unmapped channels is unchanged; the result is the unique permutation with these properties. extract_channel(k,n) equals map_channels({k:n-1},n).", "quantifier": "every finite mapping and every circuit dimension", "why_tests_cant": "uniqueness and order preservation quantify over all pairs of channels of all mappings", "anchors": ["src/qnet/algebra/core/circuit_algebra.py:map_channels,extract_channel"]}
{"id": "C07", "title": "Channel-permutation circuits compose, invert and factor as permutations", "statement": "CPermutation series products, inverses, feedback and the feedback-extraction factorisations (_factor_rhs/_factor_lhs: self << m_{n-1->in} == m_{n-1->in_im} << (red_self + cid)) satisfy their defining equations at the level of channel routing, and reduce to the identity circuit exactly when the permutation is trivial.", "quantifier": "every permutation, every port", "why_tests_cant": "equations between permutations of arbitrary size and port", "anchors": ["src/qnet/algebra/core/circuit_algebra.py:CPermutation.series_with_permutation,_series_inverse,_feedback,_factor_rhs,_factor_lhs,create"]}
{"id": "C08", "title": "Common block structure is the finest common coarsening", "statement": "_get_common_block_structure(a,b) of two block structures with the same total returns the finest structure that both a and b refine, and raises IncompatibleBlockStructures iff totals differ.", "quantifier": "all pairs of block structures", "why_tests_cant": "finest-ness quantifies over all common coarsenings", "anchors": ["src/qnet/algebra/_rules.py:_get_common_block_structure,_tensor_decompose_series"]}
{"id": "C09", "title": "SLH series product is associative with the identity as unit", "statement": "For SLH models with equal channel dimension, (A<<B)<<C and A<<(B<<C) have equal S, L and H, and cid(n) is a two-sided unit, provided scattering matrices are unitary where needed.", "quantifier": "all SLH models over any operator *-algebra, any channel dimension", "why_tests_cant": "algebraic identity over a non-commutative algebra and all dimensions", "anchors": ["src/qnet/algebra/core/circuit_algebra.py:SLH.series_with_slh"]}
{"id": "C10", "title": "SLH concatenation is associative and satisfies the interchange law with series", "statement": "(A+B)+C = A+(B+C) and (A+B)<<(C+D) = (A<<C)+(B<<D) for SLH models of matching channel dimensions (up to commuting sums in H).", "quantifier": "all SLH models, all dimensions", "why_tests_cant": "block-matrix identity in all dimensions", "anchors": ["src/qnet/algebra/core/circuit_algebra.py:SLH.concatenate_slh,SLH.series_with_slh", "src/qnet/algebra/_rules.py:_tensor_decompose_series"]}
{"id": "C11", "title": "Series inverse inverts", "statement": "For an SLH model with unitary S and Hermitian H, X << X.series_inverse() and X.series_inverse() << X equal the n-channel identity (S=1, L=0, H=0), and inversion reverses series products and distributes over concatenation.", "quantifier": "all SLH models with unitary S", "why_tests_cant": "operator-algebra identity for all dimensions", "anchors": ["src/qnet/algebra/core/circuit_algebra.py:SLH._series_inverse,SeriesProduct._series_inverse,Concatenation._series_inverse"]}
{"id": "C12", "title": "Feedback reduction rules agree with the SLH feedback formula", "statement": "Closing a feedback loop on a concatenation/series/permutation through the rewrite rules yields the same SLH model as the direct SLH feedback formula whenever 1 - S[out,in] is invertible.", "quantifier": "all circuits, all ports", "why_tests_cant": "relates a rewriting system to a closed formula for all circuits", "anchors": ["src/qnet/algebra/core/circuit_algebra.py:SLH._feedback,Concatenation._feedback", "src/qnet/algebra/_rules.py:_algebraic_rules_circuit"]}
{"id": "C13", "title": "Circuit simplification preserves the modelled SLH system", "statement": "Every binary rewrite rule used by SeriesProduct.create and Concatenation.create, and hence the result of create on any operand list of consistent dimension, has the same SLH model as the unsimplified product.", "quantifier": "all operand lists", "why_tests_cant": "a rewriting system applied to unbounded operand lists", "anchors": ["src/qnet/algebra/_rules.py:_algebraic_rules_circuit", "src/qnet/algebra/core/circuit_algebra.py:SeriesProduct,Concatenation"]}
{"id": "C14", "title": "Channel dimension is tracked correctly and mismatches are rejected", "statement": "For every circuit built by the public operations, cdim equals the number of channels of its SLH model, block_structure sums to cdim and index_in_block inverts block offsets; a SeriesProduct of circuits with different cdim raises instead of producing a circuit.", "quantifier": "all circuit expressions", "why_tests_cant": "structural induction over all circuit expressions", "anchors": ["src/qnet/algebra/core/circuit_algebra.py:Circuit.index_in_block,get_blocks,cdim", "src/qnet/algebra/core/algebraic_properties.py:check_cdims,filter_cid"]}
{"id": "C15", "title": "connect() joins exactly the requested ports", "statement": "connect(components, connections) yields a circuit in which each listed output is wired to the listed input, remaining external ports keep their relative order (or are in the order forced by the user), and an output or input port used twice is rejected.", "quantifier": "every component list and connection list", "why_tests_cant": "bookkeeping over arbitrarily many loop closures", "anchors": ["src/qnet/algebra/toolbox/circuit_manipulation.py:connect"]}
{"id": "C16", "title": "Binary-rule reduction preserves the product and reaches a fixpoint", "statement": "match_replace_binary applied to any operand list returns operands whose product equals the original product for any associative operation under which each rule is an identity, never reorders operands, and on return no adjacent pair is reducible by any rule.", "quantifier": "any rule set, any operand list", "why_tests_cant": "quantifies over rule sets and unbounded lists; termination argument", "anchors": ["src/qnet/algebra/core/algebraic_properties.py:match_replace_binary,_match_replace_binary,_match_replace_binary_combine"]}
{"id": "C17", "title": "Instance caching is transparent", "statement": "With any history of create calls and with rules fixed, a cached create returns the same expression as an uncached one; two create calls with equal arguments return equal results; caching never changes the value of an expression.", "quantifier": "every history of create calls", "why_tests_cant": "history-dependent cache state", "anchors": ["src/qnet/algebra/core/abstract_algebra.py:Expression.create,_get_instance_key"]}
{"id": "C18", "title": "Temporary rule/caching contexts restore the global state", "statement": "On leaving temporary_rules, temporary_instance_cache or no_instance_caching \u2014 normally or by exception, in any nesting \u2014 the rule tables and instance caches visible to create are exactly those before entering.", "quantifier": "every nesting and every exception point", "why_tests_cant": "all nestings and crash points", "anchors": ["src/qnet/algebra/toolbox/core.py:temporary_rules,temporary_instance_cache,no_instance_caching", "src/qnet/algebra/core/abstract_algebra.py:Expression.add_rule,del_rules"]}
{"id": "C19", "title": "Expression equality is sound: equal expressions denote the same object", "statement": "If two circuit expressions compare equal (==, and hence share hash/cache entries) then they have the same class, arguments and keyword arguments; in particular feedback circuits with different ports are different.", "quantifier": "all pairs of expressions", "why_tests_cant": "quantifies over all pairs; a missing key component is only visible on colliding pairs", "anchors": ["src/qnet/algebra/core/abstract_algebra.py:Expression.__eq__,_instance_key,Expression.__init__", "src/qnet/algebra/core/circuit_algebra.py:Feedback.__init__"]}
{"id": "C20", "title": "Pattern matching is sound and complete", "statement": "pattern.match(expr) succeeds with bindings m iff expr is an instance of the pattern under m: fixed parts equal, each wildcard bound to a sub-expression meeting its head/conditions, repeated wildcards bound to equal values, and sequence wildcards of mode 1/+/* bound to exactly-one/one-or-more/zero-or-more consecutive arguments.", "quantifier": "all patterns and expressions", "why_tests_cant": "infinitely many pattern/expression pairs", "anchors": ["src/qnet/algebra/pattern_matching/__init__.py:Pattern.match,MatchDict,match_pattern,wc"]}
{"id": "C21", "title": "substitute and apply_rules act bottom-up on the whole tree", "statement": "expr.substitute(m) replaces every maximal occurrence of a key of m simultaneously and leaves expressions without occurrences equal to the original; apply_rules visits every subexpression bottom-up, applying the first matching rule, and its explicit stack machine computes the same as the recursive specification.", "quantifier": "all expressions, all maps/rule sets", "why_tests_cant": "all trees of all depths", "anchors": ["src/qnet/algebra/core/abstract_algebra.py:Expression.substitute,_apply_rules,Expression.apply_rules"]}
{"id": "C22", "title": "Canonical operand ordering only exchanges commuting operators", "statement": "Sorting the operands of a product yields a permutation of them in which any two operators with overlapping Hilbert spaces keep their relative order, so the product is unchanged; for fully commuting sums the result does not depend on input order.", "quantifier": "all operand lists", "why_tests_cant": "comparison is not a total order; only a proof covers every list", "anchors": ["src/qnet/utils/ordering.py:DisjunctCommutativeHSOrder,FullCommutativeHSOrder,KeyTuple", "src/qnet/algebra/core/algebraic_properties.py:orderby"]}
{"id": "C23", "title": "Hilbert-space products form an idempotent commutative monoid with set semantics", "statement": "H1*H2 denotes the union of local factors irrespective of order, nesting or repetition; TrivialSpace is the unit; intersection, removal (/), subfactor tests (<=, <) and isdisjoint agree with set operations on the local factors.", "quantifier": "all Hilbert-space expressions", "why_tests_cant": "algebraic laws over all finite factor sets", "anchors": ["src/qnet/algebra/core/hilbert_space_algebra.py:HilbertSpace,LocalSpace,ProductSpace,TrivialSpace,FullSpace", "src/qnet/algebra/core/algebraic_properties.py:idem"]}
{"id": "C24", "title": "Dimension and basis enumeration of product spaces agree", "statement": "dimension of a product space is the product of factor dimensions; basis_states enumerates exactly the tensor products of factor basis states, each once, in lexicographic (row-major) order; basis_state(i) is the i-th element.", "quantifier": "all product spaces and all indices", "why_tests_cant": "size grows without bound", "anchors": ["src/qnet/algebra/core/hilbert_space_algebra.py:ProductSpace.dimension,basis_states,basis_labels,basis_state"]}
{"id": "C25", "title": "Basis labels and indices are in bijection", "statement": "For a LocalSpace with a basis, label->index->label round-trips, out-of-range indices raise IndexError (or become the zero ket through create), next(n)/prev(n) move exactly n steps or leave the space, and constructor rejects inconsistent dimension/basis.", "quantifier": "all local spaces, labels and increments", "why_tests_cant": "all basis sizes and increments", "anchors": ["src/qnet/algebra/core/hilbert_space_algebra.py:LocalSpace.__init__,_unpack_basis_label_or_index,next_basis_label_or_index", "src/qnet/algebra/core/state_algebra.py:BasisKet.next,prev"]}
{"id": "C26", "title": "Index ranges: iteration, length and membership agree", "statement": "For IndexOverRange/IndexOverList/IndexOverFockSpace, iterating yields each index value exactly once in order, len is the number of iterated values, and `in` holds exactly for iterated values; ranges include both end points (up to step).", "quantifier": "all ranges with any integer start, stop and non-zero step", "why_tests_cant": "integers are unbounded, off-by-one at the ends", "anchors": ["src/qnet/utils/indices.py:IndexOverRange,IndexOverList,IndexOverFockSpace"]}
{"id": "C27", "title": "Writing out an indexed sum gives the mathematical sum", "statement": "IndexedSum.doit() (no max_terms) equals the sum of the term over the cartesian product of all ranges; len is the number of terms; yield_from_ranges enumerates each index assignment exactly once with the rightmost index fastest.", "quantifier": "all terms and finite range lists", "why_tests_cant": "unbounded number of ranges and sizes", "anchors": ["src/qnet/algebra/core/indexed_operations.py:IndexedSum,_doit_full,terms,__len__", "src/qnet/utils/indices.py:yield_from_ranges"]}
{"id": "C28", "title": "Renaming bound indices never captures", "statement": "make_disjunct_indices returns a sum equal to the original (alpha-equivalent) whose index symbols avoid the requested symbols, and multiplying two indexed sums equals the product of the sums.", "quantifier": "all indexed sums and symbol sets", "why_tests_cant": "capture depends on particular symbol collisions", "anchors": ["src/qnet/algebra/core/indexed_operations.py:IndexedSum.make_disjunct_indices", "src/qnet/algebra/core/abstract_quantum_algebra.py:QuantumIndexedSum.__mul__,__rmul__", "src/qnet/algebra/core/scalar_algebra.py:ScalarIndexedSum.__mul__"]}
{"id": "C29", "title": "Indexed-sum simplifications preserve the sum", "statement": "Summing an index-independent term over a range yields len(range)*term; resolving a Kronecker delta yields the single selected term iff the selected value lies in the range (else zero).", "quantifier": "all terms and ranges", "why_tests_cant": "range membership of the selected index", "anchors": ["src/qnet/algebra/core/algebraic_properties.py:indexed_sum_over_const,indexed_sum_over_kronecker"]}
{"id": "C30", "title": "collect_summands preserves sums and yields collected form", "statement": "Creating a sum from any operand list gives an expression equal to the mathematical sum, with no two summands sharing the same term, no zero coefficients, and the zero element for an empty/cancelling sum; the result is invariant under reordering of the operands.", "quantifier": "all operand lists", "why_tests_cant": "cancellation patterns unbounded", "anchors": ["src/qnet/algebra/core/algebraic_properties.py:collect_summands,collect_scalar_summands,scalars_to_op"]}
{"id": "C31", "title": "expand distributes products over sums without changing the value", "statement": "expr.expand() is equal to expr in every interpretation and contains no product with a sum as a factor.", "quantifier": "all sum/product expressions", "why_tests_cant": "structural induction", "anchors": ["src/qnet/algebra/core/abstract_quantum_algebra.py:QuantumTimes._expand,_expand_product", "src/qnet/algebra/core/operator_algebra.py:Commutator._expand"]}
{"id": "C32", "title": "adjoint is an involutive conjugate-linear anti-homomorphism", "statement": "adjoint of sums, scalar products, products, commutators, KetBra and indexed sums follows (A+B)*=A*+B*, (cA)*=conj(c)A*, (AB)*=B*A*, [A,B]*=[B*,A*], and adjoint twice is the original.", "quantifier": "all operator expressions", "why_tests_cant": "structural induction", "anchors": ["src/qnet/algebra/core/abstract_quantum_algebra.py:QuantumAdjoint,QuantumTimes._adjoint,QuantumPlus._adjoint", "src/qnet/algebra/core/operator_algebra.py:Adjoint,Commutator._adjoint,OperatorPlusMinusCC._adjoint"]}
{"id": "C33", "title": "Series expansion of products is the truncated Cauchy product", "statement": "series_expand of sums/products/commutators to order n returns exactly n+1 coefficients equal to the Taylor coefficients of the product of the factor series.", "quantifier": "all factor lists and orders", "why_tests_cant": "orders and factor counts unbounded", "anchors": ["src/qnet/algebra/core/abstract_quantum_algebra.py:_series_expand_combine_prod,QuantumTimes._series_expand,QuantumPlus._series_expand", "src/qnet/algebra/core/operator_algebra.py:Commutator._series_expand", "src/qnet/algebra/core/state_algebra.py:OperatorTimesKet._series_expand,KetBra._series_expand"]}
{"id": "C34", "title": "Bosonic and level-operator rewrite rules hold on Fock states", "statement": "Each rewrite rule for Destroy/Create/LocalSigma/Phase/Displace products and operator-times-ket is an identity in the number-state representation; a a^dag -> 1 + a^dag a; sigma_jk sigma_lm = delta_kl sigma_jm.", "quantifier": "all levels, all states", "why_tests_cant": "infinite-dimensional representation", "anchors": ["src/qnet/algebra/_rules.py:_algebraic_rules_operator,_algebraic_rules_state", "src/qnet/algebra/library/fock_operators.py", "src/qnet/algebra/core/operator_algebra.py:LocalSigma.raise_jk"]}
{"id": "C35", "title": "Spin ladder coefficients realise su(2)", "statement": "The coefficients returned by Jpjmcoeff, Jmjmcoeff and Jzjmcoeff and the spin rewrite rules realise [Jz,J+-]=+-J+-, [J+,J-]=2Jz on every spin-j multiplet, with J+ annihilating m=j and J- annihilating m=-j.", "quantifier": "all (half-)integer spins and all m", "why_tests_cant": "unbounded spin", "anchors": ["src/qnet/algebra/library/spin_algebra.py:Jpjmcoeff,Jzjmcoeff,Jmjmcoeff", "src/qnet/algebra/_rules.py:_algebraic_rules_operator"]}
{"id": "C36", "title": "Commutator rewriting preserves the commutator", "statement": "Commutator.create (scalar extraction, ordering by antisymmetry, disjoint spaces -> 0, Leibniz expansion, known spin/Fock commutators) equals A*B - B*A in every interpretation.", "quantifier": "all operator pairs", "why_tests_cant": "all operator expressions and nestings", "anchors": ["src/qnet/algebra/core/operator_algebra.py:Commutator", "src/qnet/algebra/core/algebraic_properties.py:commutator_order,disjunct_hs_zero", "src/qnet/algebra/toolbox/commutator_manipulation.py:expand_commutators_leibniz"]}
{"id": "C37", "title": "Lindblad generator: formula, trace and Hermiticity preservation", "statement": "liouvillian(H,Ls) applied to rho equals -i[H,rho] + sum_k (L_k rho L_k* - (L_k*L_k rho + rho L_k*L_k)/2), agrees with SLH.symbolic_master_equation, is trace-free and Hermiticity-preserving for Hermitian H.", "quantifier": "all H, Ls, rho in any *-algebra with trace", "why_tests_cant": "operator identity", "anchors": ["src/qnet/algebra/core/super_operator_algebra.py:liouvillian,lindblad,commutator,anti_commutator", "src/qnet/algebra/core/circuit_algebra.py:SLH.symbolic_master_equation,symbolic_liouvillian"]}
{"id": "C38", "title": "Moving coherent drives into the Hamiltonian preserves the master equation", "statement": "move_drive_to_H(slh, which) has the same master equation (and Heisenberg equation without noises) as slh, with the scalar part removed from exactly the selected Lindblad operators.", "quantifier": "all SLH models with unitary S, all selections", "why_tests_cant": "operator identity for any number of channels", "anchors": ["src/qnet/algebra/core/circuit_algebra.py:move_drive_to_H"]}
{"id": "C39", "title": "liouvillian_normal_form reproduces the Liouvillian", "statement": "For a Liouvillian whose expansion has at most one jump term, the (H, Ls) returned by liouvillian_normal_form generate the same superoperator as the input (whenever no warning is printed, or the input preserves the trace), H is self-adjoint and there is at most one collapse operator; inputs with several different jump terms, or that are not sums, never give a result.", "quantifier": "all superoperators; all Hamiltonians and lists of collapse operators behind a Liouvillian", "why_tests_cant": "depends on the expansion and on cancellation between infinitely many possible terms", "anchors": ["src/qnet/algebra/core/super_operator_algebra.py:liouvillian_normal_form"]}
{"id": "C40", "title": "Superoperator rules and super-adjoint satisfy their defining relations", "statement": "SPre(A)*SPre(B)->SPre(AB), SPost(A)*SPost(B)->SPost(BA), application rules and reordering SPost/SPre hold pointwise on operators; SuperAdjoint satisfies Tr[M (L N)] = Tr[(L* M) N].", "quantifier": "all operators", "why_tests_cant": "quantifies over all operators M, N", "anchors": ["src/qnet/algebra/core/super_operator_algebra.py:SPre,SPost,SuperAdjoint,SuperCommutativeHSOrder", "src/qnet/algebra/_rules.py:_algebraic_rules_superop"]}
{"id": "C41", "title": "Partial-trace factoring preserves the trace", "statement": "tr(op, over_space) after factor_for_trace (pulling operators on other spaces out of the trace and cyclically rotating) equals the partial trace of the original operator, whenever each factor is only moved past factors it shares no space with or cyclically within the traced space; without that proviso the rewriting can change the operator.", "quantifier": "all operator products", "why_tests_cant": "depends on commutation of factors", "anchors": ["src/qnet/algebra/core/operator_algebra.py:factor_for_trace,decompose_space,OperatorTrace"]}
{"id": "C42", "title": "Zero and One behave exactly as 0 and 1", "statement": "All arithmetic operators (+,-,*,/,** and reflected versions) and conversions (int, float, complex) on the scalar singletons Zero and One agree with the numbers 0 and 1 for every other scalar operand.", "quantifier": "all scalar operands and all operators", "why_tests_cant": "operator/operand combinations; symbolic operands", "anchors": ["src/qnet/algebra/core/scalar_algebra.py:Zero,One,ScalarValue,Scalar"]}
{"id": "C43", "title": "Bra/ket products are sesquilinear and basis kets orthonormal", "statement": "BraKet/KetBra/OperatorTimesKet rewriting is linear in the ket and conjugate-linear in the bra, <j|k> = delta_jk for basis kets of one space, factorises over tensor products, and ket-bra products act as |a><b|c> = <b|c>|a>.", "quantifier": "all states", "why_tests_cant": "structural over all state expressions", "anchors": ["src/qnet/algebra/core/state_algebra.py:BraKet,KetBra,OperatorTimesKet,TensorKet,State.__mul__", "src/qnet/algebra/_rules.py:_algebraic_rules_state"]}
{"id": "C44", "title": "Equation history is faithful", "statement": "For any sequence of apply/apply_to_lhs/apply_to_rhs/set_tag/substitute calls with cont flags, eq.lhs and eq.rhs are the result of applying the functions in sequence, and the recorded history lists exactly the equations since the last non-continued step, in order.", "quantifier": "all operation sequences", "why_tests_cant": "histories of arbitrary length", "anchors": ["src/qnet/algebra/toolbox/equation.py:Eq"]}
{"id": "C45", "title": "Block matrices, permutation matrices and Matrix.block_structure", "statement": "block_matrix/vstackm/hstackm place the blocks at the right offsets, permutation_matrix is a homomorphism into 0/1 matrices with M_p M_q = M_{p o q} and M_p^T = M_{p^-1}; Matrix.block_structure gives square diagonal blocks outside which the matrix vanishes.", "quantifier": "all matrices and permutations", "why_tests_cant": "all shapes", "anchors": ["src/qnet/algebra/core/matrix_algebra.py:block_matrix,vstackm,hstackm,permutation_matrix,Matrix.block_structure,Matrix._get_blocks"]}
{"id": "C46", "title": "Order keys are consistent", "statement": "KeyTuple comparison is irreflexive and asymmetric and, on keys of one shape, a strict weak order compatible with equality, so sorting is deterministic.", "quantifier": "all key tuples", "why_tests_cant": "quantifies over all triples", "anchors": ["src/qnet/utils/ordering.py:KeyTuple,expr_order_key"]}
{"id": "C47", "title": "Nested-tuple cache keys are injective", "statement": "nested_tuple maps containers to hashable tuples such that two argument containers have equal keys only if they hold equal entries; sorted_if_possible is order-independent for dict/set containers.", "quantifier": "all nested containers", "why_tests_cant": "collisions only show on particular pairs", "anchors": ["src/qnet/utils/containers.py:nested_tuple,sorted_if_possible"]}
{"id": "C48", "title": "Scalar arithmetic preserves values", "statement": "Every operator (+,-,*,/,**, negation, conjugate, real, imag) on scalar expressions, and the creation of scalar sums, products and powers with all their simplification rules, returns an expression with the mathematically right value whenever the powers involved obey the power laws; constants combine.", "quantifier": "all scalar expressions built from values, atoms, sums, products and powers; all operators", "why_tests_cant": "structural over all expression trees and operator combinations", "anchors": ["src/qnet/algebra/core/scalar_algebra.py:Scalar,ScalarValue,ScalarPlus,ScalarTimes,ScalarPower", "src/qnet/algebra/_rules.py:_algebraic_rules_scalar", "src/qnet/algebra/core/algebraic_properties.py:collect_scalar_summands"]}
{"id": "C49", "title": "Symbolic matrix of an operator", "statement": "convert_to_sympy_matrix(expr, full_space) returns the matrix of the operator on the product of the local factors in their order: local operators have their textbook matrix elements in the basis of levels and act as the identity on the other factors, sums, products, multiples and adjoints go to those of the matrices; expressions outside full_space raise ValueError.", "quantifier": "all operator expressions and product spaces of any number of factors and dimensions", "why_tests_cant": "structural over all expressions and all dimensions", "anchors": ["src/qnet/convert/to_sympy_matrix.py:convert_to_sympy_matrix,SympyCreate,basis_state"]}
{"id": "C50", "title": "QuTiP objects of operators and SLH triples", "statement": "convert_to_qutip(expr, full_space, mapping) returns a Qobj with the matrix of the operator; with a time symbol the nested list sums, at every instant, to the matrix of the operator; SLH_to_qutip returns the matrices of the Hamiltonian and of the non-null Lindblad operators in order.", "quantifier": "all operator expressions, spaces, instants and lists of Lindblad operators", "why_tests_cant": "structural over all expressions, dimensions and instants", "anchors": ["src/qnet/convert/to_qutip.py:convert_to_qutip,_convert_local_operator_to_qutip,_convert_operator_operation_to_qutip,_time_dependent_to_qutip,SLH_to_qutip"]}
{"id": "C51", "title": "srepr round trip", "statement": "Evaluating the text that srepr prints (plain or indented, with or without a cache of variable names, whatever the printer printed before) gives back the same expression; different expressions have different texts; the printed arguments of a LocalSpace rebuild the space.", "quantifier": "all expressions (with nested tuples, lists, keyword arguments), all caches of variable names, all sequences of printed expressions", "why_tests_cant": "structural over all expressions and all histories of the printer's cache", "anchors": ["src/qnet/printing/sreprprinter.py:QnetSReprPrinter,IndentedSReprPrinter", "src/qnet/printing/_render_head_repr.py:render_head_repr", "src/qnet/printing/base.py:doprint,_get_from_cache,_write_to_cache", "src/qnet/algebra/core/hilbert_space_algebra.py:LocalSpace.__init__", "src/qnet/algebra/library/spin_algebra.py:SpinSpace"]}
{"id": "C52", "title": "dotprint draws the expression tree", "statement": "dotprint(expr, maxdepth, repeat, idfunc) terminates for every finite tree; with repeat the node ids are distinct and the graph, followed along its edges in order, unfolds to the expression tree cut at maxdepth; without repeat the statements and edges are those of all subexpressions.", "quantifier": "all trees, depth limits and id functions", "why_tests_cant": "structural over all trees", "anchors": ["src/qnet/printing/dot.py:dotprint,_node_id,_op_children"]}
{"id": "C53", "title": "tree draws the expression tree", "statement": "tree(expr, attr, exclude_type, depth, srepr_leaves) prints one line per shown node in preorder, with vertical lines exactly below ancestors that have later siblings; different shown trees give different drawings, in unicode and in ASCII.", "quantifier": "all trees, depth limits, exclusions", "why_tests_cant": "structural over all trees", "anchors": ["src/qnet/printing/treeprinting.py:print_tree,tree"]}
{"id": "C54", "title": "The derivative of an operator is its derivative", "statement": "e.diff(sym, n) for an operator expression e built from symbols, local operators, scalar multiples, sums, products, commutators and adjoints evaluates to the n-th derivative of e with respect to the scalar parameter sym: linearity, the product rules for products, multiples and commutators (with the order of non-commuting factors kept) and compatibility with the adjoint hold, the result does not depend on the form in which e is written or on expand_simplify, it is zero when sym does not occur in e, and simplify_scalar() never changes the value.", "quantifier": "every operator expression, every order n > 0, every parameter-dependent interpretation of the symbols, every SymPy derivative and simplification that is correct on coefficients", "why_tests_cant": "Operator expressions of any size and depth, any parameter dependence; the claim is about the analytic meaning of the results, not their form.", "anchors": ["src/qnet/printing/abstract_quantum_algebra.py:QuantumExpression.diff", "src/qnet/printing/abstract_quantum_algebra.py:QuantumTimes._diff", "src/qnet/printing/abstract_quantum_algebra.py:ScalarTimesQuantumExpression._diff", "src/qnet/printing/algebraic_properties.py:derivative_via_diff", "src/qnet/printing/operator_algebra.py:Commutator._diff"]}
{"id": "C55", "title": "Adiabatic elimination gives the limit of the quantum stochastic equation", "statement": "For every physical SLH model whose Hamiltonian is a polynomial of degree two and whose coupling operators are polynomials of degree one in a real parameter k, prepare_adiabatic_limit returns the coefficients Y, A, B of the drift -L^dag L/2 + iH and F, G of L^dag. Given the projector P0 to the null space of Y and the inverse of Y on its complement, eval_adiabatic_limit returns an SLH model with self-adjoint Hamiltonian whose drift, coupling, scattering and annihilation coefficients are those of the Bouten-van Handel-Silberfarb limit, if the slow space is invariant; its S is unitary there. try_adiabatic_elimination finds exactly such a projector and pseudo-inverse for diagonal Y in a complete basis, and rejects other models with CannotEliminateAutomatically.", "quantifier": "all channel numbers, all operators of every complex *-algebra, all S, L, H of the stated form, all pseudo-inverses; all lists of terms of Y", "why_tests_cant": "The claim is an operator identity between limits for all models; tests compare a few printed examples.", "anchors": ["src/qnet/printing/algebra/core/circuit_algebra.py:prepare_adiabatic_limit", "src/qnet/printing/algebra/core/circuit_algebra.py:eval_adiabatic_limit", "src/qnet/printing/algebra/core/circuit_algebra.py:try_adiabatic_elimination"]}
{"id": "C56", "title": "Heisenberg equations of motion with noises are the quantum Langevin equation", "statement": "For every physical SLH model and every system operator X, symbolic_heisenberg_eom(X, noises) returns the drift plus b_i^dag (S^dag[X,L])_i plus ([L^dag,X]S)_j b_j plus (S^dag X S - X)_ij b_i^dag b_j, whose coefficients generate a flow of *-homomorphisms (Evans-Hudson structure relations); without noises it is dual to symbolic_master_equation under every trace. A vector of noises of the wrong length raises AssertionError.", "quantifier": "all channel numbers, all S, L, H of every complex *-algebra, all X, all noise operators", "why_tests_cant": "An operator identity for all models; tests only look at scalar S and few channels, where the gauge term is absent.", "anchors": ["src/qnet/printing/algebra/core/circuit_algebra.py:SLH.symbolic_heisenberg_eom", "src/qnet/printing/algebra/core/circuit_algebra.py:SLH.symbolic_master_equation", "src/qnet/printing/algebra/core/matrix_algebra.py:Matrix.__add__"]}
{"id": "C57", "title": "The state-space form of an SLH model reproduces its equations of motion and its outputs", "statement": "For every SLH model of oscillators with a numerical scattering matrix, getABCD(slh, a0) returns (A, B, C, D, a, c) such that, for the model displaced by a0, the quantum Langevin equation of every mode is a + A X + B A_in plus operator terms that are none of the listed linear terms, every output field is c + C X + D A_in plus such terms, and the rows j+N are the equations of the adjoint modes. With doubled_up=False it returns the upper left blocks.", "quantifier": "all numbers of channels and modes, all symbolic S, L, H, all amplitudes, all interpretations of the symbols", "why_tests_cant": "An identity between operators for all models; a test can only compare a few matrices.", "anchors": ["src/qnet/printing/algebra/core/circuit_algebra.py:getABCD", "src/qnet/printing/algebra/core/circuit_algebra.py:SLH.symbolic_heisenberg_eom", "src/qnet/printing/algebra/core/operator_algebra.py:get_coeffs", "src/qnet/printing/algebra/core/abstract_algebra.py:substitute"]}
{"id": "C58", "title": "The printed text of an operator, a ket or a bra, read by the usual rules of precedence, is that operator, ket or bra", "statement": "ascii(e) puts parentheses wherever precedence demands: the text of every operator, ket and bra expression, read with ^H binding strongest, then products and application of operators to kets, then sums, and with c.c. the adjoint of what stands to its left, stands for the expression itself; in particular two expressions with the same text are equal as operators or kets, and printing does not raise.", "quantifier": "all expressions, at any depth, built from local operators, symbols, numbers, sums, products, commutators, adjoints, traces, c.c., basis, coherent and symbolic kets, tensor products and applied operators", "why_tests_cant": "Parentheses and signs depend on the nesting of expressions of any depth; examples cannot cover the grammar.", "anchors": ["src/qnet/printing/printing/asciiprinter.py:QnetAsciiPrinter", "src/qnet/printing/printing/_precedence.py:precedence"]}
{"id": "C59", "title": "doit and rewrite_with_operator_pm_cc keep the operator; doit leaves nothing to do", "statement": "expr.doit(classes, recursive) returns an expression of the same operator, for any choice of classes and recursive or not; a recursive doit leaves no Commutator and no OperatorPlusMinusCC of the requested classes anywhere in the result, and doing it again returns the same expression. rewrite_with_operator_pm_cc(expr) returns an expression of the same operator, and rewrites A + A^dag to 'A + c.c.' whatever the order of the summands.", "quantifier": "all operator expressions built from local operators, symbols, sums, products, commutators, adjoints, traces and c.c., all choices of classes, in every interpretation as operators", "why_tests_cant": "doit re-creates every node with all simplification rules and repeats until nothing changes; what it returns depends on the whole expression.", "anchors": ["src/qnet/printing/algebra/core/abstract_algebra.py:Expression.doit", "src/qnet/printing/algebra/core/abstract_algebra.py:Expression.rebuild", "src/qnet/printing/algebra/core/operator_algebra.py:rewrite_with_operator_pm_cc", "src/qnet/printing/algebra/core/operator_algebra.py:OperatorPlusMinusCC"]}
{"id": "C60", "title": "Library components are physical; coherent_input displaces the inputs", "statement": "For real parameters CoherentDriveCC (complex amplitude), PhaseCC and Beamsplitter convert to SLH models with unitary S and Hermitian H and the announced number of channels; the angles of Beamsplitters (PhaseCCs) in series add up, Beamsplitter(0) transmits everything, and a Beamsplitter between PhaseCC components realises the symmetric beamsplitter and every unitary 2x2 scattering matrix, as the documentation says. c.coherent_input(a_1..a_n) raises WrongCDimError unless n is the number of channels; otherwise its SLH model has the same S, L + S a and H + Im(L^dag S a), so for numeric S its master equation is that of c with the driving Hamiltonian -i(L^dag S a - h.c.); zero amplitudes change nothing.", "quantifier": "all circuits, all numbers of channels, all amplitudes and angles, whatever the circuit simplifier does to the result", "why_tests_cant": "holds for every circuit and every amplitude after arbitrary rewriting of the series product; the beamsplitter claim is an existence statement over all unitary matrices", "anchors": ["src/qnet/printing/algebra/library/circuit_components.py:CoherentDriveCC", "src/qnet/printing/algebra/library/circuit_components.py:PhaseCC", "src/qnet/printing/algebra/library/circuit_components.py:Beamsplitter", "src/qnet/printing/algebra/core/circuit_algebra.py:Circuit.coherent_input"]}
{"id": "C61", "title": "QuTiP kets and superoperators have the right entries", "statement": "convert_to_qutip(ket) in the ket's own space returns a column whose row for a basis state is the amplitude of the ket in that state (sums, multiples, tensor products in the order of the local factors, operators applied to kets), and it succeeds for every combination of basis states; TensorKet keeps its factors in the order the row numbering needs. convert_to_qutip(superoperator) in its own space returns the matrix that acts on column-stacked density matrices as the superoperator does. Limits proved as such: in a larger space a ket becomes a rectangular object that is not a ket; bras and inner products are never converted; a superoperator is converted only if every part acts on the whole space, so sums over different factors and the identity superoperator are refused; a superoperator applied to an operator raises TypeError.", "quantifier": "all kets and superoperators, all numbers and dimensions of local spaces, all density matrices", "why_tests_cant": "numerical comparison checks single states in small spaces; the index bookkeeping of tensor products and of column stacking has to be right for all of them", "anchors": ["src/qnet/printing/convert/to_qutip.py:convert_to_qutip", "src/qnet/printing/convert/to_qutip.py:_convert_ket_to_qutip", "src/qnet/printing/convert/to_qutip.py:_convert_superoperator_to_qutip", "src/qnet/printing/convert/to_qutip.py:_convert_state_operation_to_qutip"]}
{"id": "C62", "title": "Pauli matrices are the Pauli matrices on the chosen levels", "statement": "PauliX, PauliY, PauliZ on a local space (default or given states, by label or by index) are returned exactly when the arguments name two levels (ValueError for a space with fewer than two levels or another number of states); they are |g><e|+|e><g|, -i|g><e|+i|e><g|, |g><g|-|e><e|; their matrices are the documented 2x2 matrices at the place of the space; they are self-adjoint, their squares are the projector on the two levels and XY=iZ, YZ=iX, ZX=iY (with opposite signs in the other order), for the products the code computes; labels and indices are interchangeable.", "quantifier": "all local spaces, labels, pairs of levels, product spaces around them, all interpretations of the operators", "why_tests_cant": "a test checks one space with two or three levels; the relations are between results of the simplifier for arbitrary levels", "anchors": ["src/qnet/printing/algebra/library/pauli_matrices.py:PauliX", "src/qnet/printing/algebra/library/pauli_matrices.py:PauliY", "src/qnet/printing/algebra/library/pauli_matrices.py:PauliZ", "src/qnet/printing/algebra/library/pauli_matrices.py:_get_pauli_args"]}
{"id": "C63", "title": "The printed form of a circuit determines the circuit", "statement": "The text that ascii() (and str()) produces for a circuit can be read back: with the usual meaning of '<<', '+', brackets, cid(k), [.]_{o->i} and [.]^{-1} it is a notation for the printed circuit and for no other; this holds whether '<<' or '+' is taken to bind tighter (as they do in mathematics and in Python respectively), so a reader cannot be misled by precedence; circuits with the same text have the same SLH triple. The number of channels of a component is not displayed.", "quantifier": "all circuit expressions of any size and nesting, simplified or not, with runs of identities, permutations, feedback, inverses, SLH literals", "why_tests_cant": "a test compares the text of a few circuits with a literal; that no two circuits share a text quantifies over all pairs", "anchors": ["src/qnet/printing/printing/asciiprinter.py:QnetAsciiPrinter._print_SeriesProduct", "src/qnet/printing/printing/asciiprinter.py:QnetAsciiPrinter._print_Concatenation", "src/qnet/printing/printing/asciiprinter.py:QnetAsciiPrinter._print_Feedback", "src/qnet/printing/printing/asciiprinter.py:QnetAsciiPrinter._print_SeriesInverse", "src/qnet/printing/printing/_precedence.py:precedence"]}
{"id": "C64", "title": "An operator written out in a basis is that operator", "statement": "op.expand_in_basis() stands for op: its value is the sum over all pairs of basis states |i><i| op |j><j|, with the canonical basis (space.basis_states) it is op itself. The canonical basis states are legal kets of the space, orthonormal, complete, and as many as the dimension. With hermitian=True the result is the same for every Hermitian operator. Spaces without a basis give BasisNotSetError.", "quantifier": "all operators, all finite lists of kets on a space that contains the operator's, all product spaces; both values of `hermitian`", "why_tests_cant": "a test expands a few operators of two- and three-level systems; completeness of product bases and the pairing of the triangles quantify over all dimensions and numbers of factors", "anchors": ["src/qnet/printing/algebra/core/operator_algebra.py:Operator.expand_in_basis", "src/qnet/printing/algebra/core/hilbert_space_algebra.py:LocalSpace.basis_states", "src/qnet/printing/algebra/core/hilbert_space_algebra.py:ProductSpace.basis_states"]}
{"id": "C65", "title": "pseudo_inverse() is the Moore-Penrose inverse", "statement": "op.pseudo_inverse() stands for the operator Y with X Y X = X, Y X Y = Y and X Y, Y X Hermitian, where X is op; so it does not depend on how op is written, taking it twice gives op back, it commutes with the adjoint, it is the inverse (adjoint) of invertible (unitary) operators. PseudoInverse.create of a scalar c is 1/c. PseudoInverse(PseudoInverse(x)) is x. Products must be of parts on different spaces, or have unitary parts: for other products the result is not the pseudo-inverse.", "quantifier": "all operators with non-zero coefficients; all *-algebras the operators may act in; products with any number of factors and any nesting of tensor and unitary parts", "why_tests_cant": "the repository's tests only look at the form of a few results; that the four equations hold is a statement about all operators, and the failure for general products does not show in the form", "anchors": ["src/qnet/printing/algebra/core/operator_algebra.py:Operator.pseudo_inverse", "src/qnet/printing/algebra/core/operator_algebra.py:PseudoInverse", "src/qnet/printing/algebra/core/operator_algebra.py:OperatorTimes._pseudo_inverse", "src/qnet/printing/algebra/library/fock_operators.py:Displace._pseudo_inverse"]}
{"id": "C66", "title": "Matrix arithmetic and entry-wise operations", "statement": "Matrix(l) of a flat list is a column; m[i,j] is the entry in row i, column j (negative indices count from the end, others raise IndexError), m[i] and m[:,j] are columns. Sums, differences and negation of matrices of one shape form a commutative group; a single value is added to every entry. Products distribute over sums, an operator can be multiplied in from the left or the right, M/c times c is M, anything else refuses to divide. Transposing twice gives M; the transpose of a product is the product of the transposes in the other order, and traces are cyclic, if the entries commute (not for operators). conjugate, real, imag exist exactly for matrices of numbers, real and imag are real, and real + i*imag is the matrix. diagm(v,k) puts v on the k-th diagonal. element_wise, expand, simplify_scalar, substitute and series_expand work entry by entry and keep the shape; free_symbols and space collect those of the entries; == means same shape and same entries.", "quantifier": "all matrices of every shape (also empty ones), all entries, all *-algebras the operators may act in, all functions applied to the entries", "why_tests_cant": "shapes and indices range over all sizes; the repository tests a few small matrices", "anchors": ["src/qnet/printing/algebra/core/matrix_algebra.py:Matrix", "src/qnet/printing/algebra/core/matrix_algebra.py:diagm", "src/qnet/printing/algebra/core/matrix_algebra.py:Matrix.series_expand", "src/qnet/printing/algebra/core/matrix_algebra.py:Matrix.space"]}
{"id": "C67", "title": "Python arithmetic on operators", "statement": "A Python formula built with +, -, *, / and ** from operator expressions and plain numbers evaluates (whenever it returns) to an operator that acts as the formula, read as mathematics, says: numbers stand for multiples of the identity, a number may stand on either side, division is by numbers only, ** with a natural number is the repeated product. Hence formulas that are equal by algebra give operators that act the same: A**m * A**n and A**(m+n), (A**m)**n and A**(m*n), (A+B)**2 and A**2 + A*B + B*A + B**2, (A+B)-B and A, (A*c)/c and A. Dividing by an operator and negative powers are refused with a TypeError, division by zero with an error. (A ** 2.0 is refused too, although A ** 1.0 is A.)", "quantifier": "all formulas of any depth, all operators in them (any spaces when the factors of products keep their order or the formula has no products, otherwise one local space), all numbers, all interpretations as operators", "why_tests_cant": "formulas, operators and their representations are unbounded; the repository tests single operations", "anchors": ["src/qnet/printing/algebra/core/abstract_quantum_algebra.py:QuantumExpression.__add__", "src/qnet/printing/algebra/core/abstract_quantum_algebra.py:QuantumExpression.__mul__", "src/qnet/printing/algebra/core/abstract_quantum_algebra.py:QuantumExpression.__truediv__", "src/qnet/printing/algebra/core/abstract_quantum_algebra.py:QuantumExpression.__pow__"]}
{"id": "C68", "title": "Derivatives of scalar expressions", "statement": "For a scalar expression built from values, sums, products and powers whose exponents do not depend on the symbol, expr.diff(sym), whenever it returns, is a well-formed scalar whose value is the derivative of the value of expr: sums are differentiated term by term, products by the product rule, powers by the power rule; an expression in which the symbol is not free gives Zero. An exponent that does depend on the symbol is silently not differentiated: diff of b**sym with constant b is Zero although the derivative is not.", "quantifier": "all scalar expressions of any size and nesting, all symbols, all values and interpretations with a derivation", "why_tests_cant": "expressions and values are unbounded; the repository tests a few derivatives", "anchors": ["src/qnet/printing/algebra/core/abstract_quantum_algebra.py:QuantumExpression.diff", "src/qnet/printing/algebra/core/abstract_quantum_algebra.py:QuantumPlus._diff", "src/qnet/printing/algebra/core/abstract_quantum_algebra.py:QuantumTimes._diff", "src/qnet/printing/algebra/core/scalar_algebra.py:ScalarValue._diff", "src/qnet/printing/algebra/core/scalar_algebra.py:ScalarPower._diff"]}
{"id": "C69", "title": "Power series of scalar expressions", "statement": "For a scalar expression e, e.series_expand(param, about, order), whenever it returns, gives order+1 well-formed scalars c_0, ..., c_order, independent of the parameter, with e = c_0 + c_1 (param - about) + ... up to a multiple of (param - about)**(order+1). Hence the values of the coefficients depend only on the value of e, not on how it is written; those of a sum are the sums, those of a product the Cauchy products, those of b**n (n > 1 a natural number) those of the product of n factors b, those of a constant are the constant and zeros; zero and one entries are the objects Zero and One. Singular terms and negative or fractional exponents are refused with a ValueError, a symbolic exponent with a TypeError (not the ValueError the code means to raise).", "quantifier": "all scalar expressions of any size and nesting, all orders, all values and interpretations with a parameter", "why_tests_cant": "expressions, orders and values are unbounded; the repository tests a few expansions", "anchors": ["src/qnet/printing/algebra/core/abstract_quantum_algebra.py:QuantumExpression.series_expand", "src/qnet/printing/algebra/core/abstract_quantum_algebra.py:QuantumPlus._series_expand", "src/qnet/printing/algebra/core/abstract_quantum_algebra.py:QuantumTimes._series_expand", "src/qnet/printing/algebra/core/abstract_quantum_algebra.py:_series_expand_combine_prod", "src/qnet/printing/algebra/core/scalar_algebra.py:ScalarValue._series_expand", "src/qnet/printing/algebra/core/scalar_algebra.py:ScalarPower._series_expand"]}
{"id": "C70", "title": "Powers of indexed scalar sums", "statement": "For an indexed scalar sum S over ranges r_1..r_k whose indices have no primed copies in S and are not bound inside the summand, S**n (n > 0) is one indexed sum over n copies of the ranges with pairwise distinct indices, and its value is the product of n factors S for every value of the free indices and symbols; S**0 is One, S**1 is S; S**(m+n) has the value of S**m * S**n. Without the condition the value can be wrong: (sum_i A(i, i'))**2 captures i'.", "quantifier": "all indexed sums with any number of ranges and any summand, all positive exponents, all interpretations of the symbols", "why_tests_cant": "the renaming of the summation indices is repeated n-1 times; tests check n = 2", "anchors": ["src/qnet/printing/algebra/core/scalar_algebra.py:ScalarIndexedSum.__pow__", "src/qnet/printing/algebra/core/indexed_operations.py:IndexedSum.make_disjunct_indices"]}
{"id": "C71", "title": "Derivative objects", "statement": "For symbols with arguments and derivative objects over them (any nesting): e.diff(x, n), and create(e, derivs), whenever they return, give a well-formed object whose value is the n-th partial derivative (the partial derivatives in turn) of the value of e, provided x occurs in the points of evaluation at most as the value x itself. The value of e depends only on e.free_symbols, so differentiating by any other symbol gives Zero, rightly. evaluate_at(vals) replaces the symbols by the values, later values taking precedence, and succeeds exactly when every key is a symbol of the derivative (else ValueError). The order of differentiation does not matter: the same object results, of the summed order. Without the proviso the result is wrong: (d/dx x**2)(x=2y) differentiated by y has no chain-rule term; and an object evaluated at a Python number cannot be differentiated (AttributeError).", "quantifier": "all symbols with any arguments, all nestings of derivative objects, all orders, symbols and points, all interpretations with commuting partial derivatives", "why_tests_cant": "orders, nestings, points and values are unbounded; tests check single objects by structural equality, never values", "anchors": ["src/qnet/printing/algebra/core/abstract_quantum_algebra.py:QuantumDerivative", "src/qnet/printing/algebra/core/abstract_quantum_algebra.py:QuantumExpression.diff", "src/qnet/printing/algebra/core/abstract_quantum_algebra.py:QuantumSymbol._diff", "src/qnet/printing/algebra/core/algebraic_properties.py:derivative_via_diff"]}
{"id": "C72", "title": "Taylor series of symbols with arguments", "statement": "For a symbol f with arguments, f.series_expand(x, x0, N) always returns N+1 coefficients; the n-th is the n-th derivative of f by x, evaluated at x = x0, divided by n!. In every interpretation by real functions in which f has derivatives of all orders in x, f = c_0 + c_1 (x-x0) + ... + c_N (x-x0)**N + f^(N+1)(z)/(N+1)! (x-x0)**(N+1) for some z between x0 and x (on either side).", "quantifier": "all symbols with any number of arguments of any form, all points, orders, values of the symbols and real interpretations", "why_tests_cant": "orders are unbounded and the statement is about values of arbitrary functions; the repository tests compare four coefficients structurally", "anchors": ["src/qnet/printing/algebra/core/abstract_quantum_algebra.py:QuantumExpression._series_expand", "src/qnet/printing/algebra/core/abstract_quantum_algebra.py:QuantumSymbol._series_expand", "src/qnet/printing/algebra/core/abstract_quantum_algebra.py:_evaluate_at", "src/qnet/printing/algebra/core/abstract_quantum_algebra.py:QuantumDerivative.evaluate_at"]}
{"id": "C73", "title": "Calculating with equations keeps them true", "statement": "Starting from a true equation, after any sequence of apply (functions that send equal values to equal values), apply_to_lhs and apply_to_rhs (functions that keep the value), set_tag, copy and arithmetic, with or without cont, every printed line is true (a blank left side read as the last one above) and so is the equation. The sum, difference, product and quotient of true equations and expressions are true equations; substituting in an identity gives an identity. verify() has the value lhs - rhs, hence value zero exactly if the equation holds. Whether the equation holds depends only on free_symbols. == with another equation compares both sides, with an expression the right side (so == is not transitive).", "quantifier": "all equations with any history, all sequences of calls, all functions and operations, all values of the symbols", "why_tests_cant": "histories and sequences of calls are unbounded and the functions are arbitrary; tests follow single chains", "anchors": ["src/qnet/printing/algebra/toolbox/equation.py:Eq"]}
{"id": "C74", "title": "Products of indexed kets and bras", "statement": "For states x and y (kets or bras, each an indexed sum or not) x * y has the value of the product: ket * bra and bra * ket multiply the value of one with the adjoint value of the other, bra * bra is the bra of the product of the kets (equal to the product of the bras if the kets commute). This holds if no summation index of one factor is a free index of the other and the indices that must be primed have no primed copies in use. Two sums are combined with distinct indices, those of the left factor first and unchanged. For a sum k, <k|*|k> has the value v* v and |k>*<k| a self-adjoint value. If only the bra is a sum its indices are never primed, so a free index of the ket equal to the summation index is captured: |i> times the bra of sum_i |i> is computed as sum_i |i><i|.", "quantifier": "all kets and bras built from symbols with indexed labels, scalar factors, sums, products and indexed sums; all ranges and index values; all interpretations in algebras with an adjoint", "why_tests_cant": "the number of indices, their ranges and the nesting are unbounded; tests try a few sums with fixed labels", "anchors": ["src/qnet/printing/algebra/core/state_algebra.py:State.__mul__", "src/qnet/printing/algebra/core/indexed_operations.py:IndexedSum.make_disjunct_indices"]}
{"id": "C75", "title": "Rule dictionaries stay well-formed", "statement": "check_rules_dict accepts a list or mapping exactly if every item is a pair of a string and (Pattern for ProtoExpr, callable whose argument names are the wildcard names) and no name occurs twice, and returns these rules in order; otherwise the first offending item determines TypeError or ValueError. add_rule appends one such rule to the dictionary the class uses, or raises and changes nothing; del_rules with names removes exactly these rules, keeping the order, and deleting an added rule restores all dictionaries; a missing name raises KeyError after the names before it are gone; del_rules without names gives the class an empty dictionary and leaves classes that do not inherit from it alone. rules and show_rules agree. After any history of such calls, failed ones included, all dictionaries have distinct names and well-formed rules. A class without its own dictionary shares that of its base class, so rules added to it appear there; an iterator passes the check and gives no rules.", "quantifier": "all rule lists, all classes and inheritance orders, all stores of rules, all finite histories of add_rule and del_rules calls", "why_tests_cant": "histories of changes to shared class attributes are unbounded; tests add and delete a few rules", "anchors": ["src/qnet/printing/utils/check_rules.py:check_rules_dict", "src/qnet/printing/algebra/core/abstract_algebra.py:Expression.add_rule", "src/qnet/printing/algebra/core/abstract_algebra.py:Expression.del_rules", "src/qnet/printing/algebra/core/abstract_algebra.py:Expression.rules", "src/qnet/printing/algebra/core/abstract_algebra.py:Expression.show_rules"]}
{"id": "C76", "title": "The flat API exports the same objects", "statement": "After a successful import every public object of every public module below a package, at any depth, is an attribute of the package: the same object under the same name; its name is in the package's __all__, which is sorted and keeps the names it had. The submodules are attributes of the package, and public attributes it had before are unchanged. Two public modules with different objects under one public name make the import fail. Importing again changes nothing. This holds if no submodule is called like a public object and a package's own public objects are listed in its __all__; without these conditions names are not passed on, or a module replaces an object.", "quantifier": "all trees of packages and modules, all attributes and __all__ lists", "why_tests_cant": "the tree of modules may have any depth and width; tests look at a few names of one fixed tree", "anchors": ["src/qnet/printing/_flat_api_tools.py:_import_submodules"]}
{"id": "C77", "title": "Sum gives the sum its arguments describe", "statement": "Sum(i, a, b, s)(t), with b and s positional or as the keywords to and step in any order, is the indexed sum of t over a, a+s, ... up to and including b (s defaults to 1); with a list or tuple it runs over these values; with a local or spin space, as argument or keyword hs, or the space of the term if none is given, over the indices of its basis. The value of the sum is the sum of the values of t with i replaced by each of these numbers. Other types of positional arguments raise TypeError from Sum itself; missing, repeated, unknown or ill-typed arguments raise TypeError when the term is given; with a start and keywords a sum is formed exactly if to, and step if given, are integers and nothing else is given. A step of zero is accepted and fails with ValueError only when the sum is written out.", "quantifier": "all index symbols, terms, integers, lists and spaces, all positional and keyword arguments, all values in any algebra", "why_tests_cant": "arguments and ranges are unbounded; tests try a few calls", "anchors": ["src/qnet/printing/algebra/core/abstract_quantum_algebra.py:Sum", "src/qnet/printing/algebra/core/abstract_quantum_algebra.py:_sum_over_range", "src/qnet/printing/utils/indices.py:IndexOverRange"]}
