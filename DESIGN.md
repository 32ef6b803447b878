# Formal model of PyZX in Rocq: design

Source under study: `/repo` (Python, read only, never run). Every definition in
a `*Model.v` file cites the file and lines it mirrors.

## 1. Trusted base

* Coq 8.16.1's kernel.
* What `Print Assumptions` prints below each theorem in the `Props*.v` files.
  Theorems about GF(2) matrices and other purely discrete code are closed under
  the global context. Theorems that mention complex numbers use the standard
  library's classical reals, and list only
  `ClassicalDedekindReals.sig_forall_dec`, `ClassicalDedekindReals.sig_not_dec`
  and `FunctionalExtensionality.functional_extensionality_dep` (sometimes
  `Classical_Prop.classic`, which the standard trigonometry depends on).
* The faithfulness of the hand translation Python -> Gallina (section 3).
* Nothing else: no axioms of our own, no functors, no plugins.

## 2. Modelling conventions

* Python exceptions are values: functions return `res A := Ok a | Err e`.
* Python dicts with integer keys are insertion-ordered association lists
  (`dict`), so iteration order is the real one.
* Python sets: `set.pop`/iteration order is unspecified, so functions that pop
  from a set take the order as an extra argument; theorems quantify over it.
* `Fraction` = `Qc` (canonical rationals, Leibniz equality); Python floats in
  `Scalar.floatfactor` are idealised as exact complex numbers (rounding is not
  modelled).
* Loops: structural recursion/fold where a bound is syntactic, otherwise
  relations or fuel, with an explicit termination theorem.
* Complex numbers are pairs of stdlib reals (`CNum.v`), `e^{i pi q}` through
  `cos`/`sin`.

## 3. What is modelled

| area | python | files |
|---|---|---|
| GF(2) linear algebra | `linalg.py` (all of `Mat2`, `CNOTMaker`; not the optional C extension) | `LinModel` / `LinProofs`, `LinAlg`, `LinRank`, `LinUse`, `LinFacts` |
| permutations | `extract.py` 64-82 | `PermModel` / `PermProofs` |
| greedy row reductions | `extract.py` 164-347 | `GreedyModel` / `GreedyProofs`, `GreedyFacts` |
| scalars | `graph/scalar.py` | `ScalarModel` / `ScalarProofs`, `PiIrr`, `PairProofs`, `IsoExact` |
| graph store | `graph/graph_s.py`, parts of `graph/base.py` | `GraphModel` / `GraphProofs`, `GraphOps`, `StoreProofs` |
| semantics of diagrams (specification) | - | `GraphSem`, `SumLemmas` |
| rewrite rules | `rules.py`: bialgebra, spider, id, isolated, lcomp, pivot, pivot_gadget, pivot_boundary, phase gadget fusion | `RulesModel` / `SpiderProofs`, `IsoProofs`, `IdProofs`, `LcompProofs`, `PivotProofs`, `GrowProofs`, `GadgetProofs`, `RuleLemmas`, `PivotMatch`, `RuleShape`, `Bialg`, `BialgLoop`, `BialgEx` |
| strategies | `simplify.py`: simp loop, *_simp, interior_clifford_simp, clifford_simp, full_reduce, to_gh, to_rg | `SimpModel` / `SimpProofs`, `ColorProofs`, `TermProofs`, `InvProofs`, `RoundProofs`, `BfixProofs`, `TotalProofs`, `GrowTotal`, `FullTotal` |
| gates and gate lists | `circuit/gates.py` (all unitary classes: constructors, to_basic_gates, to_adjoint, split_phases, reposition, tcount), `circuit/__init__.py` (adjoint, to_basic_gates, split_phase_gates, add_circuit, tensor, depth) | `GateModel` / `GateProofs`, `GateDecomp`, `GateAdj`, `GateMask`, `DepthProofs` |
| circuit to diagram | `circuit/graphparser.py` circuit_to_graph, `gates.py` `to_graph` methods and TargetMapper, `circuit/__init__.py` to_graph | `CircGraphModel` / `AmpProofs`, `CircGraphProofs`, `CircGraphFacts` |
| circuit equality, identity test | `circuit/__init__.py` verify_equality, `graph/base.py` is_id | `VerifyModel` / `VerifyProofs` |
| building diagrams | `graph/base.py` copy, adjoint, compose, `+`, `*`, tensor, merge, subgraph_from_vertices, apply_state, apply_effect (GraphS backend) | `GraphAlgModel` / `GraphAlgProofs`, `GraphAlgFacts`, `ComposeProofs`, `ComposeFacts`, `ApplyProofs`, `AlgUse` |
| CNOT tracker | `routing/parity_maps.py` CNOT_tracker | `TrackModel` / `TrackProofs` |
| generalised flow | `gflow.py` (all), `extract.py` 35-38 bi_adj | `GflowModel` / `GflowProofs` |
| circuit extraction | `extract.py` 35-62, 64-82, 351-383, 452-590, 593-710, 782-807 (clean_frontier, neighbors_of_frontier, remove_gadget, apply_cnots, extract_circuit, graph_to_swaps) | `ExtractModel` / `ExtractSem`, `ExtractMap`, `ExtractClean`, `ExtractCz`, `ExtractFront`, `ExtractNbrs`, `ExtractCnot`, `ExtractTake`, `ExtractPivot`, `ExtractRound`, `ExtractFinish`, `ExtractKeys`, `ExtractFacts`, `ExtractEx` |
| unitaries of gates (specification) | - | `CircSpec` |
| executable checkers for examples | - | `Decide`, `RunEx`, `ZXFacts`, `RedFacts` |
| graph-like form | `simplify.py` 410-517 (is_graph_like, to_graph_like) | `TidyModel` / `TidySub`, `TidyProofs`, `TidyLoop`, `TidyFacts` |
| unfusing, match limits | `rules.py` 242-272 (unspider), the `num` arguments | `RulesModel` / `UnfuseProofs`, `NumProofs` |
| copy rule, supplementarity | `rules.py` copy and supplementarity matchers and rewrites | `RulesModel` / `CopyProofs`, `CopyFacts`, `SuppProofs`, `SuppFacts` |
| differences of graphs | `graph/diff.py` GraphDiff.calculate_diff, apply_diff | `DiffModel` / `DiffProofs` |
| symbolic phases | `symbolic.py` Var, Term, Poly (without division, parsing and complex coefficients), phases in `graph_s.py` 291-305 | `SymModel` / `SymProofs`, `SymFacts` |
| phases as strings | `utils.py` 86-109 phase_to_s, `graph/jsonparser.py` 44-71 string_to_phase (not float() and the parser of symbolic expressions) | `StrModel` / `StrProofs` |
| multigraph backend | `graph/multigraph.py` Edge, add_vertices, add_edge, remove_edge, set_edge_type, edges, clone (Edge objects in an explicit heap; without W nodes, Z-boxes and remove_vertices) | `MultiModel` / `MultiProofs`, `MultiFacts`, `MultiList`, `MultiEx` |
| GraphS objects with references: attributes, all mutators, set_vdata, clone | graph_s.py 30-68, 86-120, 122-200, 279-343; base.py 87-102 | `AliasModel`, `AliasProofs`, `AliasFacts`, `AliasEx` |
| magic state decompositions: replace_magic_states and the eleven replacement functions | simulate.py 319-484 | `MagicModel`, `MagicAlg`, `MagicProofs`, `MagicFacts`, `MagicSum`, `MagicEx` |
| T-count of diagrams | simplify.tcount | `SimuModel` (definition), `TCount`, `TCountRules` (each rule and simplifier), `TCountFacts` |
| reduce_scalar, SumGraph.full_reduce/reduce_scalar, find_stabilizer_decomp, max_terms_needed | simplify.py 173-193, simulate.py 68-86, 297-316 | `SimpModel`, `SimuModel` (definitions), `PgPsep` (pivot_gadget_simp keeps Pauli spiders apart), `ReduceScalar`, `StabProofs`, `StabEx` (an execution with 56 terms) |
| gate-level optimization: `Optimizer`, `basic_optimization`, `stats`, `toggle_element`, `swap_element` (optimize.py 43-517) | `OptModel` | `OptTrace` (gates up to commutation), `OptSem` (delayed gates), `OptInv`, `OptStep`, `OptParse`, `OptSort`, `OptProofs` |
| tensors: numpy's tensordot and transpose, the spider tensors, `pop_and_shift`, `tensorfy`, `tensor_to_matrix`, `compose_tensors`, `adjoint`, `compare_tensors`, `find_scalar_correction` (tensor.py 48-75, 87-301; without W nodes and Z boxes; `np.allclose` exact) | `TensorModel` | `TensorNp` (numpy), `TensorSpider`, `TensorPos` (order of vertices, axes), `TensorForm` (one contraction), `TensorStep`, `TensorProofs`, `TensorOps`, `TensorUse` |
| `Circuit.to_tensor`, `Circuit.to_matrix`, `compare_tensors` on circuits, `is_unitary`, `generate.identity` (circuit/__init__.py 273-278, tensor.py 208-232 and 304-309, generate.py 50-70) | `CircTensorModel` | `CircTensor` (the diagram of a circuit meets the conditions of tensorfy) |
| interactive rules: `color_change`, `color_change_diagram`, `strong_comp`, `copy_X`, `copy_Z`, `pi_commute_Z`, `pi_commute_X`, `fuse`, `remove_id` and their checks (basicrules.py 54-260; without Z boxes, W nodes, and without the insertion branch 152-158 of pi_commute_Z, which changes the dictionary being iterated over) | `BasicRulesModel` | `BasicColor`, `BasicFuse`, `BasicPi`, `StrongComp`, `BasicCopy`, `BasicEx` |
| TODD | `todd.py` 40-441 (ParityPolynomial, MultiLinearPoly, the TODD step, todd_simp; not todd_on_graph, call_topt), `parity_network.py` | `ToddModel` (model), `ToddSig` (todd_iter), `ToddPoly` (to_clifford), `ToddNet` (parity_network), `ToddSem` (phase polynomials against gate maps), `ToddProofs`, `ToddCases` |
| phase blocks | `optimize.py` 522-778 (greedy_consume_gates, phase_block_optimize), T-count of the optimizer 43-517 | `BlockModel` (model), `BlockLane`, `BlockTab`, `BlockGreedy`, `BlockLoop` (greedy_consume_gates), `BlockProofs`, `BlockOpt` (phase_block_optimize), `OptCount` |
| diagram to circuit | `circuit/graphparser.py` 25-86 (graph_to_circuit), `circuit/__init__.py` 255-262 | `BackModel` (model), `BackSem`, `BackProofs` (from_graph), `BackRound`, `BackNorm` (round trip, norm), `BackPhase` |
| Steiner routing | `routing/steiner.py` 27-330 (steiner_gauss, rec_steiner_gauss without `permutation`, steiner_reduce_column), `routing/architecture.py` 115-133, 282-477 | `RouteModel` (model), `RouteProofs` (coupled CNOTs), `RouteTree`, `RouteEch`, `RouteFW`, `RouteTotal` (echelon form), `RouteExamples` |
| local search moves | `local_search/congruences.py` 36-213 | `CongModel` (model), `CongProofs` (wires, phases, local complementation), `CongPivot` (pivot), `CongEx` (random moves, sequences, refutations), `PropsCong` |
| gadgetize | `gadget_extract.py` 15-16, 35-46 (the rest of that file is unfinished by its own note, with misspelt names; not modelled) | `GadgetizeModel`, `GadgetizeProofs`, `PropsMbqc` |
| measurement patterns | `mbqc.py` 34-99 (`measure`, `apply_pauli`; positions are exact rationals where the code has floats; symbolic phases left out) | `MbqcModel`, `MbqcProofs` (measure), `MbqcPauli`, `MbqcEx` (refutations), `PropsMbqc` |
| cluster states | `mbqc.py` 10-32 (`cluster_state`; positions are exact rationals where the code has floats, so grids of about 2^53 rows, where 2*q-0.8 is rounded, differ; places in `inputs` are natural numbers) | `ClusterModel`, `ClusterProofs` (one place of the grid), `ClusterEnd` (the loop, the map), `PropsCluster` |
| property theorems | - | `PropsZX`, `PropsRed`, `PropsLin`, `PropsGreedy`, `PropsCirc`, `PropsConv`, `PropsAlg`, `PropsTrack`, `PropsFlow`, `PropsExtract`, `PropsTidy`, `PropsCopy`, `PropsSupp`, `PropsDiff`, `PropsSym`, `PropsStr`, `PropsMulti`, `PropsAlias`, `PropsMagic`, `PropsTCount`, `PropsStab`, `PropsOpt`, `PropsTensor`, `PropsBasic`, `PropsTodd`, `PropsBlock` |

Not modelled: H-boxes, W nodes, Z-boxes, ground generators (`is_ground` is
constantly false), vdata, drawing/tikz, parsers of concrete syntax, float
rounding, `quiet`/`stats` printing, performance.

Circuits: classical bits, InitAncilla, PostSelect, DiscardBit, Measurement and
all textual formats are left out; gate phases are exact rationals. The H-box
branch of `CCZ.to_graph` (`zh=True`) is modelled as code but H-boxes have no
meaning in the specification, so C26 excludes it; by default (`zh=False`) CCZ
and Toffoli are decomposed first and are covered. `TargetMapper.labels` is a
Python set; its iteration order is the argument `so`. C27 assumes that a set of
the integers 0..n-1 is iterated in increasing order, as CPython does.

### Extraction
The CNOTs of a round (extract.py 659-696: greedy reduction, column swaps, Gaussian
elimination, depending on `optimize_cnots`) are over-approximated: the model lets a
round use any reordering of the neighbours and any list of CNOTs with distinct
control and target, so the theorems cover every strategy. `extract_circuit` carries
a flag `strict`; `strict = false` is the code, `strict = true` adds an assertion
(a fresh vertex is not a stored gadget) that is only a proof device. All property
theorems are about `strict = false`. The invariant of the loop: the diagram still in
the graph, followed by the gates collected so far, is the original map.

### Method for circuit to diagram
`amp L pv g b z` is the sum over internal bits with the current end vertex of
qubit q pinned to bit z q. Each gate construction changes `amp` by the gate
matrix (with a pending Hadamard where the end vertex is an X spider).

### Specification of circuits (independent of the code)
A state gives an amplitude to every assignment of bits to qubits. `gden g` is
the map of a gate as documented (OpenQASM 2.0 / qelib1.inc), `cden` composes
them in list order. Untouched qubits carry arbitrary bits.

### Specification of diagrams (independent of the code)
A ZX-diagram denotes a function of bits on its BOUNDARY vertices:
`sem g b = sum over bits x of the other vertices of  scalar * prod_v e^{i pi
phase(v) x_v} * prod_{edges} w(edge)`, with `w = delta` for a plain wire and
`(-1)^{xy}/sqrt 2` for a Hadamard wire; an X spider is a Z spider with a
Hadamard on every leg, so the effective edge type is toggled once per X end.
This is the interpretation implemented by `tensor.py` in mathematical form
(proved: C57).
Two diagrams are equivalent when interfaces agree and `sem` agrees for every b.

### Proof method for rewriting
For a list L of vertices let `integL L g x` be the same product restricted to
L. Each primitive operation multiplies `integL` by a known local factor,
pointwise in x. A rule removing vertices R is correct if the sum over bits of R
of the local factors of R equals the product of the factors of the edits; the
matched vertices are pairwise non-adjacent so the sum factorises over matches.

## 4. Per property plan

* C01 pointwise lemma about `add_edge` for arbitrary L. C02 inductive invariant
  over an operation datatype. C03/C04 scalar value function; C04 expected to be
  false (cos of the phase without pi): refutation + partial theorem on
  Clifford+T phases.
* C05-C08 local identities, batch of non-adjacent matches, arbitrary candidate
  order. C09-C11 same; refutations where batches interact. C10
  (CopyProofs, CopyFacts) works with `semL`, the value of the part of the
  diagram not yet marked for removal: copying is exact only if no two
  receivers are joined, and up to a non-zero scalar always. C11
  (SuppProofs, SuppFacts) uses the same method; the matches found never touch
  one another unless spiders are isolated.
* C12 pointwise invariance of `integL`. C13 composition of the above through an
  inductive description of the loops. C14 vertex-count / measure arguments.
* C15 via C04 with the phase restriction.
* C16-C22 matrices as lists of lists of booleans; elementary row operations as
  a list replayed on trackers; echelon invariant over sections.
* C23 permutations as lists. C24/C25/C39 gates as operators on amplitude
  functions `(nat->bool)->C`. C26/C27 graph semantics vs circuit semantics.
* C28-C31 graph surgeries with the sum semantics. C32 association-list
  reasoning. C33/C40 polynomials evaluated at real assignments. C34 the
  multigraph edge counters. C35/C36/C37 GF(2) invariants and graph semantics.
* C38 the sum over the bits of new vertices as exact arithmetic in Z[w], w =
  e^{i pi/4}, divided by a power of sqrt 2; the completeness of each list of
  terms is decided by computation. C41-C45 direct reasoning / witnesses.
* C69/C70 the vertices are added row by row; the amplitude of the part drawn so
  far is the map of the gates read so far. C71 sums over the bits of the
  qubits of a gate.
* C72 an invariant of the recorded row additions. C73 the tree grows downwards
  from the root; step 1 gives every qubit with a child a one, step 2 clears the
  targets; on a line the first pass of floyd_warshall already finds the
  distances. C74 a witness. The graph of the architecture is seen through the
  lists of its edges and neighbours; sets are iterated in an arbitrary order
  (`so`, `eo`), in the witness of C73 in increasing order, as CPython does for
  small integers. The construction of architectures, their reduce_order, the
  genetic search and phase_poly.py are not modelled.
* C75 a local sum over the two removed spiders gives the new plain wires times a
  power of sqrt 2; `plain` (no Hadamard wire between the colours) is kept by
  spider fusion and by the rule itself. The matches of a round are pairwise
  not joined, because the edges at their neighbours are discarded; so the local
  identities can be applied at the same time. Ground vertices are not modelled.
* C76, C77 every elementary edit multiplies the integrand by a known factor; toggling
  all pairs of neighbours and adding pi/2 gives i^(parity of the neighbours), the new
  leaf and the old spider swap roles in the sum. For the pivot the three blocks of
  toggled wires and the pi on the common neighbours give (-1)^(p1 p2), which the
  sum over the two old spiders reproduces. The random choice is a relation between
  the diagram and the possible results, the order of sets is `so`. The weights of
  the random choice are the default ones (`uniform_weights`); the rest of
  local_search (scores, genetic, simulated_annealing) is not modelled.
* C78 two new spiders joined by Hadamard wires are the identity, so the phase may sit at
  either end; the loop keeps: every vertex not yet visited or new is settled.
* C79, C80 the boundary vertex has one wire, so the integrand splits into that weight and a
  part that does not depend on the bit; the sums are compared bit by bit.
* C81 an invariant over the places of the grid, with two functions that name the output and the
  input of a place, gives the integrand as a product; every spider is copied to its output, so the
  sum over the spiders collapses (`collapse`).
* C82 flipping one bit changes the factors of at most three places; each change is a sign.
* C43 strings as lists of Unicode code points; decimal notation from the
  standard library.

Where the faithful model violates a property the theorem is named
`..._refuted` and exhibits a witness; where only part is proved the name ends
in `_partial`.

## How to read seeded/LOG.jsonl

`proofs_failed` is observed: the lemmas at which the build of the edited copy
stopped. In the first 97 entries, most of them written by a script,
`theorems_failed` is the list of property theorems that the edit was expected
to break, entered when the build failed anywhere; files after the failing lemma are not
rebuilt. Such an entry shows that the proofs do not go through, but not by
itself that the theorem named is the one that detects the edit: a proof can
fail because it follows the text of a definition although its claim still
holds. From the routing entries on, the edited model was also evaluated and
each entry has a `note`. Of the fourteen routing edits three turned out to
leave the claim true, and one could not be evaluated; these four name no
theorem. For the six edits of `BackModel` no witness was evaluated.
