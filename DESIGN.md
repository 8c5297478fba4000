# Formal model of 00mjk/QNET in Rocq (Coq 8.16.1)

QNET is a symbolic algebra package for quantum circuits. Its behaviour is decided by pure
functions on immutable expressions plus a small amount of global mutable state (rule tables and the
instance cache). The model is a shallow embedding: every Python function that matters becomes a
total Gallina function with exceptions as values (`res A := Ok a | Err e`), and loops become
structural recursion, folds, or recursion on fuel whose exhaustion is a separate error value excluded by a
theorem.

Layout of `rocq/theories/`:

* `*Model.v`    – the code, function by function, each definition citing file and lines in /repo.
* `*Spec.v`     – small independent specifications (only where the theorem statement is not already in
                  plain mathematics).
* `*Proofs.v`   – lemmas.
* `Properties_*.v` – property theorems only, each closed by `exact lemma`, with an `Example` showing
                  the hypotheses are met, and `Print Assumptions`.

## Plan per property

| id | what is modelled | how it is proved |
|----|------------------|------------------|
| C01–C05 | `utils/permutations.py` completely (lists of nat / Z, cycles loop with fuel) | induction, counting (NoDup + bound ⇒ bijection), loop invariants |
| C06–C07 | `map_channels`, `extract_channel`, `pad_with_identity`, CPermutation methods | list lemmas on top of C01–C05 |
| C08 | `_get_common_block_structure` | characterisation by the set of partial sums |
| C09–C12 | SLH triples over an abstract *-ring (record, not axioms), matrices as functions with dimensions | finite-sum algebra; `non_commutative_ring` |
| C13 | circuit expressions with SLH denotation, each binary/unary rule | rule-by-rule soundness, then lifted through the generic `match_replace_binary` theorem |
| C14 | cdim / block_structure / index_in_block / get_blocks / check_cdims / filter_cid | induction on expressions |
| C15 | `connect` | port bookkeeping invariant |
| C16 | `match_replace_binary` recursion with arbitrary rule table | fuel + measure, monoid soundness, adjacency invariant |
| C17–C19 | `Expression.create`, caches, rule tables, contexts as a state machine | invariant over op lists; refutation for Feedback keys |
| C20 | `Pattern.match`, `MatchDict` | declarative relation, soundness + completeness |
| C21 | `_apply_rules` stack machine, `substitute` | refinement to recursive spec |
| C22, C46 | `KeyTuple`, `DisjunctCommutativeHSOrder`, merge/insertion-sort with non-total comparison | only adjacent commuting swaps |
| C23–C25 | Hilbert spaces | set semantics |
| C26–C29 | index ranges, indexed sums, renaming, const/Kronecker simplification | arithmetic, alpha-equivalence semantics |
| C30–C33 | quantum sum/product machinery | denotation in any (non-commutative) algebra |
| C34–C36 | Fock/level/spin rules | representation on number states / spin multiplets |
| C37–C40 | commutators, Lindbladians, superoperators | *-algebra identities |
| C41 | partial trace factoring | laws of the partial trace, instance on registers; soundness of monitored runs, `_refuted` without the monitor |
| C42 | scalar singletons | case analysis, `_refuted` where false |
| C43 | state algebra: sums, multiples, tensor products, OperatorTimesKet, BraKet, KetBra, Bra, expand | vectors with tensor product, action, inner and outer product (`KetSpec`); instance on registers; monitored runs, unmonitored for kets and one local space; `_refuted` cases |
| C44 | `Eq` | refinement to a list of (lhs, rhs, tag) |
| C45 | matrix helpers | index arithmetic |
| C47 | `nested_tuple` | injectivity by induction |
| C48 | scalar algebra | denotation in a commutative ring with conjugation |
| C49 | convert_to_sympy_matrix | matrix of an expression on a product space (`ConvSpec`), mixed-radix digits; induction on the recursion, Kronecker product lemmas; success theorem; `_refuted` cases |
| C50 | convert_to_qutip for operators, time-dependent lists, SLH_to_qutip | same matrices; nested lists as sums at an instant (`QutipSpec`); `_refuted` cases |
| C51 | srepr, plain and indented, with its cache; keyword arguments of local spaces | a parser of Python calls (`SreprSpec`) reads the text back; induction over the expression with an invariant on the cache; `_refuted` cases |
| C52 | dotprint's loop with its stack and position counters | the queue holds the rest of a level and the beginning of the next; graph unfolding as an inductive relation (`DrawSpec`) |
| C53 | print_tree | lines computed from the path of last-child flags; injectivity by induction over the tree |
| C54 | diff, _diff of all operator classes, derivative_via_diff, simplify_scalar, free symbols (DiffModel) | the value of the result is the n-th derivative of the value, in every interpretation with a derivation (induction over expressions and recursion depth); monotone and local versions transfer it to the simplifier as it is; instance: families of operators on Fock spaces with differentiable matrix entries |
| C55 | AdModel.v (prepare, eval_limit, choose) | AdSpec.v states the limit coefficients of Bouten, van Handel and Silberfarb; noncommutative algebra in AdProofs.v; proved for all channel numbers |
| C56 | NoiseModel.v (noise_eom), SlhModel.v | NoiseSpec.v: structure maps, Langevin equation, flow relations; sums over channels and noncommutative algebra |
| C57 | AbcdModel.v (getABCD, get_coeffs, substitution of ladder operators, eom with noises on symbolic S, L, H) | AbcdSpec.v, NoiseSpec.v: the matrices times the vectors of modes and inputs equal the Langevin equation of the displaced model; displacement as a *-homomorphism, shown to exist by conjugation with displacement operators |
| C58 | AsciiModel.v (QnetAsciiPrinter for operators, kets, bras; precedence) | AsciiSpec.v: a reader of texts by precedence rules, independent of the printer; induction over expressions |
| C59 | DoitModel.v (doit, rebuild, rewrite_with_operator_pm_cc and its temporary rules), TrModel.v for traces | OpSpec.v values; DoitSpec.v explicit; induction over the recursion depth, closure of all create functions |
| C60 | LibModel.v (circuit_components.py, Circuit._coherent_input) on top of CSimpModel.v, ToSlhModel.v | LibSpec.v: laws of cos, sin, exp; scattering matrices; C13 for the simplification, matrix algebra for the rest; real numbers as the instance |
| C61 | QsModel.v (to_qutip.py:44-118, 307-410) on top of QutipModel.v, KetModel.v, SupModel.v | QsSpec.v: amplitudes by levels of the local spaces, action on column-stacked matrices; induction on the recursion depth, index arithmetic |
| C62 | PauliModel.v (pauli_matrices.py:11-90) on top of BasisModel.v, OpModel.v | PauliSpec.v: the three operators by transition operators, 2x2 matrices; multiplication table from the laws of transition operators, C30/C34 for what the code returns, C49 interpretation by matrices |
| C63 | CAsciiModel.v (asciiprinter.py:180-260, _precedence.py) on CircModel.v | CAsciiSpec.v: a recursive descent reader with either precedence convention, independent of the printer; induction on the circuit: every text is a chain of primaries; value by the meanings of CSimpSpec.v (C13) |
| C64 | XbModel.v (operator_algebra.py:80-138, hilbert_space_algebra.py basis_states) on KetModel.v | kets and operators as for C43 (KetSpec.v); sandwich by two projectors from the laws of the outer product; the upper triangle and its adjoint by induction on the list of states; product bases by induction on the factors |
| C65 | PinvModel.v (operator_algebra.py `_pseudo_inverse` of every class, fock_operators.py, spin_algebra.py) on OpModel.v | uniqueness and the reverse-order law of Moore-Penrose inverses from the axioms of a *-algebra (what commutes with x and its adjoint commutes with its pseudo-inverse); induction on the expression; two-level counterexample |
| C66 | MarModel.v (the rest of matrix_algebra.py) on MatModel.v, HilbertModel.v | ravel/reshape proved inverse on regular arrays; then entry by entry, sums by asum lemmas; counterexamples with 2x2 matrices of Gaussian rationals as operators |
| C67 | AriModel.v (abstract_quantum_algebra.py:211-292) on OpModel.v | evaluation of formulas refines a relational meaning in any *-algebra; induction on the formula |
| C68 | SdModel.v (abstract_quantum_algebra.py:127-154,470-471,547-552; scalar_algebra.py:245-249,1071-1077) on ScalarModel.v | soundness against an abstract derivation; induction on the recursion depth; instance: dual numbers |
| C69 | SserModel.v (abstract_quantum_algebra.py:159-216,492-495,535-546,1071-1093; scalar_algebra.py:267-291,1079-1095) on ScalarModel.v | expansions with remainder in a commutative ring with a parameter; induction on the recursion depth; instance: functions of an integer |
| C70 | IdxPowModel.v (scalar_algebra.py:1010-1031) on IdxModel.v | partial products have only indices of S and primed copies of them; induction on the exponent with the product theorem behind C28 |
| C71 | DvModel.v (abstract_quantum_algebra.py:123-152,358-363,690-831; algebraic_properties.py:947-976) | functions of an assignment, an abstract derivative of functions of one value; well-formed dicts as invariant; induction on the objects and the orders; instance: polynomials over the reals with the derivative of Coquelicot |
| C72 | TayModel.v (abstract_quantum_algebra.py:159-216,365-372,1095-1101) on DvModel.v | the loop keeps one derivative object of order n; meaning by DvSpec.v; Taylor-Lagrange of Coquelicot for real functions, reflected for points on the right |
| C73 | EqvModel.v (equation.py:100-107,219-236,245-303) on EquationModel.v | an invariant: all printed lines true and the three lists of the history equally long; induction on the calls |
| C74 | IdxBraModel.v (state_algebra.py:87-151) on IdxModel.v | the adjoint commutes with nested sums; then as C28, case by case |
| C75 | RulModel.v (check_rules.py; abstract_algebra.py:201-338): dictionaries in a heap, class attributes looked up along the MRO | induction on the items and on the history |
| C76 | FlatModel.v (_flat_api_tools.py:37-93): trees of modules | induction on the tree with an invariant of the loop over the submodules |
| C77 | SumFModel.v (abstract_quantum_algebra.py, end; utils/indices.py:431-510) on IdxModel.v and BasisModel.v | argument binding by cases; values from C26 |

## Trusted base

* Coq 8.16.1's kernel (`coqc`), with `vm_compute` conversion in the concrete `Example`s and refutations.
* `Print Assumptions` on every property theorem (the commands are in the `Properties_*.v` files) prints
  "Closed under the global context" (no axiom at all), except for the following theorems. No axiom of mine is used anywhere;
  the axioms are those of the standard library's real numbers:
  `ClassicalDedekindReals.sig_forall_dec`, `ClassicalDedekindReals.sig_not_dec`,
  `FunctionalExtensionality.functional_extensionality_dep` (called "the three" below), needed where a theorem or the concrete instance that
  refutes a claim speaks about real square roots or about the complex numbers.
  | theorems | axioms |
  |---|---|
  | `C22_scaled_product_refuted`, `C33_at_every_point`, `C33_minus_cc_refuted`, `C54_at_every_point`, `C54_plus_minus_cc_refuted`, `C54_zeroth_derivative_refuted` | the three |
  | `C34_create_acts`, `C34_destroy_acts`, `C34_sigma_acts`, `C34_phase_acts`, `C34_product_acts`, `C34_number_states`, `C34_sites_number_states` | the three |
  | `C35_coefficients`, `C35_jz_jplus`, `C35_jz_jminus`, `C35_jplus_jminus`, `C35_highest`, `C35_lowest`, `C35_adjoint`, `C35_casimir`, `C35_jplus_acts`, `C35_jminus_acts`, `C35_jz_acts`, `C35_commutators` | the three |
  | `C41_register_laws`, `C41_pull_out_refuted`, `C41_rotation_refuted`, `C49_spin_refuted`, `C49_truncation_refuted`, `C50_spin_order_refuted`, `C50_mapping_refuted`, `C61_embedded_refuted` | the three |
  | `C55_not_closed_refuted`, `C49_convert_any`, `C50_convert_any`, `C49_simplified_*`, `C62_x_matrix`, `C62_y_matrix`, `C62_z_matrix` | `functional_extensionality_dep` |
  | `C60_any_beamsplitter_complex` | the three and `Classical_Prop.classic` (arc cosine) |

  `vcheck` also lists the constants of `Coq.ssr.ssrunder.Under_rel` and `Rdefinitions`: they are
  loaded with the standard library's files and no property theorem depends on them (`Print Assumptions`).
* The correspondence between the Python source and the `*Model.v` files, which is by reading: every model
  definition cites the lines it mirrors and says what it simplifies.
* Algebraic structures (`AlgSpec.algebra`, `star_algebra`, `CAlg.calgebra`) are records passed as arguments,
  with concrete instances (2x2 Gaussian-rational matrices in `CInst.v`, `AlgInst.v`), not axioms.

## What is modelled, area by area

**Permutations** (`PermModel`, C01–C05): all of `utils/permutations.py`. Python integers that can be negative are
`Z` where negativity matters (`check_permutation`).

**Channels** (`CircModel`, C06–C08, C14): `CPermutation` (create, series, feedback, block_perm, factorisations),
`circuit_identity`, `map_channels`, `pad_with_identity`, `extract_channel`, `index_in_block`, the common block structure.

**Matrices and SLH** (`MatModel`, `SlhModel`, C09–C12, C38, C45): `matrix_algebra.py` for two-dimensional arrays; `SLH`
construction checks, series, concatenation, inverse, feedback (with moving the ports), master and
Heisenberg equations, `move_drive_to_H`. Operators are elements of an arbitrary complex *-algebra, numbers in a matrix are
multiples of the identity. Oracles: `scalar_inv` (deciding whether `1 - S[n,n]` is an
invertible multiple of the identity and inverting it), `idcoeff` (`get_coeffs(..)[IdentityOperator]`), `zb` (`== 0`).
Not modelled: numpy broadcasting of unequal shapes, `Matrix` helpers delegating to sympy (`expand`, `simplify`,
`series_expand`), noise terms of `symbolic_heisenberg_eom`, `getABCD`, adiabatic elimination, numeric conversion.

**Circuit simplifier** (`CSimpModel`, `ToSlhModel`, C13, C14): `create` of SeriesProduct, Concatenation, Feedback and
SeriesInverse with all circuit rules, `feedback`, `series_inverse`, `creduce`, `FB`, `pad_with_identity`, `get_blocks`,
`toSLH`, as mutually recursive functions tied by a recursion depth (`simp lit fuel`). `CSimpSpec.cmodel` lists the laws an
interpretation must obey; `CSimpSlh` shows that SLH triples over any complex *-algebra obey them, so simplification is sound
for every circuit expression. Oracles: `comp` (the SLH triple of a symbol/component), `inv` (see below), `slh_eq` (equality of SLH
objects). Not modelled: instance caching inside `create` (C17), feeding back the only channel of an SLH literal.
Termination of the simplifier is not proved (results are fuel-independent once produced).

**connect** (`ConnectModel`, C15): the whole function, on top of the circuit simplifier: references to components (by index
or object) and ports (by index or label), channel offsets, the two dicts with Python's semantics for repeated keys,
`map_channels`, the two series products, `force_SLH`, the loop of `feedback()`. Spec (`ConnectSpec`): what a connection
refers to; closing loops between named ports one by one (`wire`); and on the level of fields (`networks`). SLH objects are
compared by value, so the final `expand().simplify_scalar()` is the identity. Not modelled: references of other types.

**Binary rewriting** (`BinModel`, C16): `match_replace_binary` with an arbitrary rule table; rules are functions that
may fail (CannotSimplify). Exceptions other than CannotSimplify propagate.

**Instance cache, rules tables, contexts** (`CreateModel`, `CtxModel`, C17, C18): `Expression.create` with `_instances`,
`add_rule`/`del_rules`/`show_rules`, `temporary_rules`, `temporary_instance_cache`, `no_instance_caching` as a state
machine over operation lists with exceptions inside the `with` bodies.

**Expressions** (`EqModel`, `TreeModel`, C19, C21): structural equality/hash keys, `substitute`, `apply_rules`,
`rebuild`, the explicit-stack traversals. SymPy leaves are opaque.

**Instance keys** (`KeyModel`, C47): `nested_tuple`, `sorted_if_possible` (including that the iterator is exhausted in the
exception handler) and `_get_instance_key`, over a type of Python values (ints, strings, bytes, None, opaque objects,
tuples, other sequences, sets, dicts, OrderedDicts). `True == 1` and floats are left out.

**Pattern matching** (`PatModel`, C20): `Pattern.match` incl. list wildcards, conditions as boolean functions.

**Ordering** (`SortModel`, C22, C46): `KeyTuple`, `DisjunctCommutativeHSOrder`, `FullCommutativeHSOrder`, Python's sort as a
binary-insertion sort driven by `<` (any algorithm that only uses `__lt__` would give different
results on inconsistent orders; for consistent orders the result is determined).

**Hilbert spaces** (`HilbertModel`, `BasisModel`, C23–C25): local, product, trivial and full spaces with their set operations,
`intersect`, `remove`, dimension, basis labels, `next_basis_label_or_index`, index types.

**Indexed sums** (`IdxModel`, C26–C29): index ranges, `doit`, `make_disjunct_indices`, sum products, constant and
Kronecker-delta simplification. Index expressions are linear over the integers.

**Operator algebra** (`OpModel`, `OpLeibModel`, C30–C36): `create` of ScalarTimesOperator, OperatorPlus, OperatorTimes and
Commutator with `assoc`, `orderby`, `collect_summands`, `filter_neutral`, `match_replace_binary` and all 27 binary
rules for products (ladder, transition, phase, displacement and spin operators), `adjoint`, `expand`,
`expand_commutators_leibniz`, the spin coefficient functions; mutually recursive, tied by a recursion depth
(`creators_n`); results are depth-independent once produced (`OpFuel`), termination is not proved. Parameters of the model: the scalar arithmetic (`scalars`: Python numbers and SymPy expressions),
the dimensions of local spaces, the comparison of order keys. The meaning of an expression is its value in any
`interp`: a complex *-algebra with operators obeying the textbook relations; `OpFock` (number states, spins; all laws
verified over the complex numbers) and `OpJet` (a representation that also has displacement operators) are instances, so no
law is inconsistent or vacuous. Because sorting factors on overlapping spaces can scramble them
(C22_scaled_product_refuted), product theorems come in two versions: for expressions on one local space, unconditionally, and in general
for runs in which no sorting step moves an operator past one sharing a space with it (`checked`). Not modelled here: OperatorTrace
rules, OperatorPlusMinusCC creation, indexed sums inside operators (C27–C29), derivatives, symbolic level labels.

**Power series** (`OpSeriesModel`, C33): `series_expand` of operators, `_series_expand_combine_prod`, the loop over SymPy's
terms for coefficients. SymPy's `series` and `free_symbols` are oracles with a stated contract (`sympy_ok`). Meaning: an
interpretation with a parameter (`param`): constants, regular remainders, uniqueness of expansions; instance `OpSeriesInst`:
operator-valued functions of a real number on Fock spaces with polynomial coefficients. Not modelled: OperatorTrace, local
operators whose arguments contain the parameter (OperatorDerivative).

**Scalars** (`ScalarModel`, C42, C48): `Zero`, `One`, `ScalarValue`, atoms (any other scalar, e.g. a BraKet), sums, products and
powers with every Python operator (dispatch between the classes included) and their creation rules. The wrapped values
(Python numbers, SymPy expressions) are a parameter `pyvals` with their own operators; C42 assumes `number_laws`
(what 0 and 1 do among them, up to `==`), C48 a meaning `smeaning` in a commutative ring with conjugation and a power function.
Instance: Gaussian rationals (`ScalarInst`). Not modelled: ScalarIndexedSum, ScalarDerivative, comparisons, a bare SymPy object on
the left of an operator (SymPy decides there).

**Equations** (`EquationModel`, C44): `Eq` with its history; expressions, the functions applied to them and `==` are parameters
(an equivalence which the functions respect). Not modelled: functions that return None, `verify`, symbol sets, column layout.

**Super-operators** (`SupModel`, C37, C40): `create` of SuperOperatorPlus/Times, ScalarTimesSuperOperator, SPre, SPost and
SuperOperatorTimesOperator (application), adjoints, expansion, `commutator`, `anti_commutator`, `lindblad`, `liouvillian`, on top of the
operator model. Meaning: linear maps on the operators of an interpretation (`sinterp`); instances `elementary` (two-sided
multiplications over any interpretation) and `qubit_s` (all linear maps on 2x2 matrices, with trace and adjoint). As for operators,
products are proved for checked runs, and unconditionally on one local space. An application that no rule simplifies is
represented by an operator expression chosen by the parameter `app`. Not modelled: series expansion, derivatives, simplify_scalar.

**Normal form of a Liouvillian** (`NfModel`, C39): `liouvillian_normal_form` on top of the super-operator model: classification of the
summands, the matrix of jump coefficients (a dictionary of dictionaries), the symbolic and the numeric routine for one jump operator,
the warnings and the final Hamiltonian. Since operators cannot be compared by `<`, `sorted` raises TypeError for more than one jump
operator; the branches of the code for larger matrices are unreachable and not modelled. `complex`, `simplify_scalar`, `sympy.sqrt`
and `numpy.sqrt` are oracles with the laws `coeff_laws`; `numpy.linalg.eigh` on a 1x1 matrix returns the real part and the vector (1).

**Partial traces** (`TrModel`, C41): `OperatorTrace.create` with its eleven rules, `factor_for_trace`, `_expand`, on top of the operator model; a
Hilbert space is the increasing list of its labels, dimensions are a parameter (None: no basis). `monitor` is the condition under which
factoring is sound; the code runs without it (`no_monitor`). Meaning: a partial trace satisfying `trace_laws` (TrSpec); instance `TrInst`: the partial trace of registers of n-level systems,
built from matrix units in the operator algebra of the register. Not modelled: `decompose_space` with symbolic labels, `get_coeffs`.

**States** (`KetModel`, C43): `KetPlus/TensorKet/ScalarTimesKet/OperatorTimesKet/BraKet/KetBra.create` with all their rules (`_rules.py` 515-802) and
simplification steps, the loops that look for a common factorisation of product states (with fuel; running out is the Python infinite loop),
`State.__mul__/__add__`, `Bra` arithmetic, `expand`. The objects `BraKet(a,b)`/`KetBra(a,b)` that are not simplified further are parameters (a scalar and an
operator) required to mean the inner/outer product. `KetSpec.kets` are the laws of a space of vectors with a commutative tensor product, an action of the
operators, inner and outer products; `KetInst`/`KetInst2` prove them for functions of the configurations of a register of n-level systems, with every hypothesis of the theorems
met. The law for rotating a coherent state is part of the record, guarded by `displ`; no instance with displacement operators is given. Sums,
multiples, tensor products, local operators on basis states: the code as it is. Otherwise: runs of the code in which the operator sort is careful,
operator products are split cleanly and coherent states are rotated by angles known to be real; on one local space only the last.
Not modelled: indexed sums of kets (C27-C29), labels of basis states (natural numbers here; C25), state derivatives and series.

**Conversion to matrices** (`ConvModel`, `QutipModel`, C49, C50): `convert_to_sympy_matrix` and the operator part of `convert_to_qutip`, function by function, with
matrices as functions of (row, column) together with their size. Entries are values of scalars (any `reading`); QuTiP's `create/destroy/jmat/basis/qeye/tensor`
and SymPy's `eye/TensorProduct/.H` are modelled by their documented entries. The specification gives the matrix of an expression by the levels (digits)
of the row and column numbers, so that the Kronecker products of the code are something to be proved. `expand` is a parameter: it is C31 that says what it does.
Not modelled: `PseudoInverse`, `NullSpaceProjector`, states and superoperators in QuTiP, coefficient functions and strings (a coefficient is a scalar), rounding.

**srepr** (`SreprModel`, C51): `doprint` with the cache, `render_head_repr`, `QnetSReprPrinter` and `IndentedSReprPrinter` on
expressions given by their head, positional arguments and minimal keyword arguments. Texts are lists of tokens; a printed
name, number, string literal or SymPy object is one token. Python's reader is the parser of `SreprSpec`. That the constructor
called on the arguments gives the object with these arguments is proved for `LocalSpace` and `SpinSpace` and is otherwise the
assumption that a call with these arguments rebuilds the object.

**Tree drawings** (`DrawModel`, C52, C53): `dotprint`'s breadth-first loop and `print_tree`, on trees of names; texts, labels and styles are opaque.

**Products over several local spaces** (`OpSiteSpec`, `OpClosed`, `OpMulti1`–`3`, `Properties_Sites`; C31, C32, C34, C36): when every factor acts
on one local space the factors are sorted by local space and the monitored simplifier never stops, so the theorems need no condition on the run.
Assumed of the order of Hilbert spaces (`site_order`): it is a strict total order, the trivial space comes first, and spaces with all labels smaller come first.
Multiples of products over several spaces are excluded as factors (C22_scaled_product_refuted) unless the factors are already in order.

**C54 (derivatives).** DiffModel models `QuantumExpression.diff`, the `_diff` methods of all operator classes, `derivative_via_diff` and `simplify_scalar`. SymPy enters as three functions (occurrence, derivative, simplification) with the contract `sympy_diff`; the analytic meaning is an abstract `derivation` (product rules, uniqueness). `DiffInst` builds one from real derivatives of matrix entries, so that `C54_at_every_point` speaks about `derivable_pt_lim` of amplitudes. Objects of class OperatorDerivative are represented by symbols; DiffCode numbers them (std++ `Countable`), used in the instance only.

**Adiabatic elimination (C55).** `prepare_adiabatic_limit`, `eval_adiabatic_limit` and the choice of the null space in `try_adiabatic_elimination` over an abstract complex *-algebra; `series_expand` is an oracle constrained by `series_ok`. Not modelled: the projection of Y to the truncated basis (its terms are an input of `choose`), the assertion after it, and the final substitution of P0 by the identity.

**Equations of motion with noises (C56).** `symbolic_heisenberg_eom` with noises over an abstract complex *-algebra; the test `len(S.space & X.space)` is a parameter of the model. `Matrix - X` broadcasts X to every entry, as in the code.

**State-space form (C57).** `getABCD` on expressions of OpModel. `complex(o)` and the conversion to SympyMatrix are left out, `SLH.substitute/expand/simplify_scalar` act entry by entry. The displaced model is the image of the model under a *-homomorphism a -> a + a0.

**Plain text (C58).** The text is a list of symbols (names with space and arguments, signs, brackets, numbers); spelling, blanks, indexed sums, derivatives, pseudo-inverses, scalars made of inner products, the unicode and LaTeX printers are not modelled. The terms of the text of a number and whether its precedence asks for parentheses (sympy) are parameters: their signed sum is the number.

**doit and c.c. (C59).** Indexed sums (C29), derivatives and the instance caches of other classes during the temporary rules are not modelled.

**Library components (C60).** The `Component` machinery (labels, defaults, `properties_for_args`) is not modelled: a component is a label with its parameters. `C60_any_beamsplitter_complex` uses `Classical_Prop.classic` besides the three axioms of the real numbers (through the arc cosine of the standard library).

**QuTiP states and superoperators (C61).** `qutip.basis`, `tensor`, `spre`, `spost` are modelled by their documented results, `qutip.coherent` is a parameter. The failure of `list + Qobj` (to_qutip.py:376) is modelled as TypeError.

**Finite-level systems (C49, C50).** `LvlInst` is an interpretation of the operator algebra by the matrices on a product of local spaces (transition operators only: no oscillators, no spins). With it the value theorems of C30–C36 become statements on the matrices of the results, and the hypothesis of C49/C50 that every product factor acts on one local space can be dropped (`C49_convert_any`, `C50_convert_any`). These theorems use `functional_extensionality_dep` (matrices are functions).

**Pauli matrices (C62).** The model goes through the label lookup of BasisModel and the simplifier of OpModel. The local space is given twice, as labels (BasisModel) and as the number by which operators refer to it (OpModel); `space_of` says that the dimensions agree.

**Circuit printing (C63).** The reader of CAsciiSpec.v knows nothing of the printer; `flat` writes nested series products and nested concatenations as one, which the theorems C63_flat_value/C63_same_value show to be harmless. For expressions without such nesting (`flattened`) the reader returns the circuit exactly.

**Expansion in a basis (C64).** `basis_states` and `expand_in_basis` follow the loops of the code, with positions compared as `i > j`; OperatorPlusMinusCC is the expression OPM of OpModel.v. The matrix element is computed by the products of C43 and expanded by a function of which only is known that it keeps the value.

**Pseudo-inverses (C65).** Unevaluated PseudoInverse objects are symbols with a name that stands for the operand. The specification is the four equations of the docstring; the theorem holds in every interpretation of the operators in which the objects occurring are pseudo-inverses.

**Matrix arithmetic (C66).** numpy is modelled by ravel, reshape, zip, broadcasting, dot and diag as the code uses them. Entries are elements of an arbitrary complex *-algebra; for conjugate/real/imag they carry the kind of Python object (with attribute real, sympy, only conjugate, operator).

**Python arithmetic (C67).** Formulas are trees of Python operators over operator expressions and plain numbers; the evaluator dispatches as the special methods do, the creators are those of OpModel. The meaning is a relation between formulas and elements of an algebra, proved functional.

**Derivatives of scalars (C68).** `diff` and `_diff` of Scalar classes over ScalarModel; the meaning is a derivation of the ring of values (SdSpec.v); SdInst.v is a concrete interpretation (dual numbers over the Gaussian rationals).

**Power series of scalars (C69).** The scalar counterpart of C33, including ScalarPower, whose series is that of the repeated product; SserInst.v is a concrete interpretation (functions of an integer parameter, polynomial remainders).

**Powers of indexed sums (C70).** The loop of ScalarIndexedSum.__pow__ over the modelled product of sums. The hypothesis plain_sum cannot be dropped (C70_capture_refuted).

**Derivative objects (C71).** The value of a derivative object is defined from an operator iD on functions of one value that respects equality of functions and kills constants (DvSpec.v); the partial derivatives of the symbols are asked to commute (smooth). Proved for all such interpretations; DvInst.v is the interpretation by real polynomials (axioms of the standard reals, functional extensionality).

**Taylor series of symbols (C72).** The objects the loop produces are computed exactly; their values are the derivatives at the point over n!; for real functions Taylor with the remainder of Lagrange follows (realI: any real interpretation).

**Truth of equations (C73).** C44 says what the history is; C73 that its lines are true, for an arbitrary valuation of expressions that equal expressions share.

**Products of indexed kets and bras (C74).** The adjoint of a term is a syntactic function whose value is shown to be the adjoint of the value.

**Rule dictionaries (C75).** The store has identities, so that sharing a dictionary with a base class is visible.

**The flat API (C76).** The public names are a parameter of the theorem, so that helper functions and modules imported by a package are no obstacle.

**Sum (C77).** Argument binding is modelled as Python does it, so that every way of writing a range is covered.

## Differences between the code and the documented behaviour (theorems ending in `_refuted`)

Each is a machine-checked counterexample run on the model: see the notes in MANIFEST.json. Examples: `Feedback` nodes that differ only in
their ports are equal (C17/C19), negative `map_channels` keys (C06), FullSpace set operations (C23), `doit` of
empty sums (C27), variable capture in products of sums (C28), Kronecker sums ignore the range (C29), block-cutting a
column matrix (C45), unsortable sets vanish from instance keys (C47).

## Not expressible / out of scope

* SymPy's own simplification (`sympy.simplify`, `KroneckerDelta` simplification, `series`), numpy floats and
  qutip numerics: external libraries, they appear as oracles with stated contracts or not at all.
* Printing to LaTeX/unicode glyph tables, PyX drawing: no semantic property beyond tables.
* CPython-level behaviour: hash randomisation, garbage collection, import order.
