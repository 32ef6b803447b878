{"id": "C01", "title": "Adding an edge multiplies the diagram by that edge", "statement": "add_edge(s,t,type) on a ZX-diagram (Z/X spiders, boundaries, no self-loop), also when an edge between s and t already exists, yields a diagram (including its scalar) whose value equals the value of the diagram with both edges present, for every boundary assignment; it either succeeds with that meaning or raises.", "quantifier": "every graph with symmetric adjacency, every pair of distinct vertices, every edge type, every boundary assignment", "why_tests_cant": "parallel-edge resolution changes edge type, phase and scalar at once; only finitely many graphs can be tested while the claim is about every surrounding diagram and every phase", "anchors": ["pyzx/graph/graph_s.py:GraphS.add_edge", "pyzx/graph/base.py:BaseGraph.add_edge_table"]}
{"id": "C02", "title": "Graph store invariants survive every history of edits", "statement": "After any sequence of successful add_vertices/add_vertex_indexed/add_edge/add_edges/remove_edge/remove_vertices/set_* calls starting from an empty graph: neighbours are symmetric, every neighbour is an existing vertex, type and phase exist exactly for existing vertices, new vertices get names not in use, and removing a vertex removes it from inputs/outputs.", "quantifier": "every finite history of graph-editing calls with arbitrary arguments", "why_tests_cant": "histories are unbounded and interleave removals and insertions; tests sample a few", "anchors": ["pyzx/graph/graph_s.py:GraphS"]}
{"id": "C03", "title": "Scalar bookkeeping is a homomorphism to complex numbers", "statement": "add_power/add_phase/add_node/add_float/mult_with_scalar/copy(conjugate) change the number denoted by a Scalar by exactly the factor sqrt(2)^n, e^{i pi p}, 1+e^{i pi p}, f, the other scalar's number, and complex conjugation respectively.", "quantifier": "every scalar state and every argument (all rationals, all integers, all complex factors)", "why_tests_cant": "phases are arbitrary rationals and the state accumulates over unbounded histories", "anchors": ["pyzx/graph/scalar.py:Scalar"]}
{"id": "C04", "title": "Scalar of a connected pair of one-legged spiders", "statement": "add_spider_pair(p1,p2) multiplies the number by (1+e^{i pi p1}+e^{i pi p2}-e^{i pi (p1+p2)})/sqrt(2) for all phases p1,p2 in [0,2).", "quantifier": "all pairs of rational phases", "why_tests_cant": "the function is a case split over denominators; the tests only use multiples of pi/4", "anchors": ["pyzx/graph/scalar.py:Scalar.add_spider_pair"]}
{"id": "C05", "title": "Spider fusion preserves the linear map for every schedule", "statement": "spider_simp (any number of rounds, any iteration order of the candidate set, any filter) returns a diagram with the same inputs, outputs and value (scalar included).", "quantifier": "every ZX-diagram, every set-iteration order, every filter function, every number of rounds", "why_tests_cant": "set iteration order and the non-interaction of parallel matches are schedule properties; the number of graphs is infinite", "anchors": ["pyzx/rules.py:match_spider_parallel", "pyzx/rules.py:spider", "pyzx/simplify.py:spider_simp"]}
{"id": "C06", "title": "Identity removal preserves the linear map for every schedule", "statement": "id_simp returns a diagram with the same interface and value for every candidate order and filter.", "quantifier": "every ZX-diagram, every set-iteration order, every filter function", "why_tests_cant": "schedule property over infinitely many graphs", "anchors": ["pyzx/rules.py:match_ids_parallel", "pyzx/rules.py:remove_ids", "pyzx/simplify.py:id_simp"]}
{"id": "C07", "title": "Local complementation preserves the linear map for every schedule", "statement": "lcomp_simp returns a diagram with the same interface and exactly the same value for every candidate order and filter; matches applied in one parallel batch do not interfere.", "quantifier": "every ZX-diagram, every set-iteration order, every filter, every vertex degree", "why_tests_cant": "the scalar exponent is quadratic in the degree and matches are applied simultaneously", "anchors": ["pyzx/rules.py:match_lcomp_parallel", "pyzx/rules.py:lcomp", "pyzx/simplify.py:lcomp_simp"]}
{"id": "C08", "title": "Pivoting preserves the linear map for every schedule", "statement": "pivot_simp, pivot_gadget_simp and pivot_boundary_simp (on diagrams whose Z-Z edges are Hadamard) return a diagram with the same interface and the same value for every candidate order and filter.", "quantifier": "every ZX-diagram in graph-like form, every candidate order, every neighbourhood size", "why_tests_cant": "three neighbourhood classes of arbitrary size with boundary and gadget variants; unbounded", "anchors": ["pyzx/rules.py:pivot", "pyzx/rules.py:match_pivot_parallel", "pyzx/rules.py:match_pivot_gadget", "pyzx/rules.py:match_pivot_boundary"]}
{"id": "C09", "title": "Phase-gadget fusion preserves the linear map", "statement": "gadget_simp returns a diagram with the same interface and value.", "quantifier": "every graph-like ZX-diagram, every candidate order", "why_tests_cant": "groups of gadgets are fused simultaneously; interaction between groups is not exercised by tests", "anchors": ["pyzx/rules.py:match_phase_gadgets", "pyzx/rules.py:merge_phase_gadgets", "pyzx/simplify.py:gadget_simp"]}
{"id": "C10", "title": "State copying preserves the linear map", "statement": "copy_simp returns a diagram with the same interface and value on fused all-Z diagrams.", "quantifier": "every fused diagram of Z spiders, every candidate order", "why_tests_cant": "matches are applied in parallel, with interference only for particular schedules", "anchors": ["pyzx/rules.py:match_copy", "pyzx/rules.py:apply_copy", "pyzx/simplify.py:copy_simp"]}
{"id": "C11", "title": "Supplementarity preserves the linear map and does not crash", "statement": "supplementarity_simp returns normally with a diagram of the same interface and value on graph-like diagrams.", "quantifier": "every graph-like diagram, every candidate order", "why_tests_cant": "depends on the order in which candidates are popped", "anchors": ["pyzx/rules.py:match_supplementarity", "pyzx/rules.py:apply_supplementarity"]}
{"id": "C12", "title": "Colour change preserves the linear map", "statement": "to_gh and to_rg (for any select predicate, and the default one evaluated on the evolving graph) keep inputs, outputs and value; after to_gh no X spider remains.", "quantifier": "every ZX-diagram, every selection predicate", "why_tests_cant": "adjacent colour-changed spiders toggle a shared edge twice; arbitrary graphs", "anchors": ["pyzx/simplify.py:to_gh", "pyzx/simplify.py:to_rg"]}
{"id": "C13", "title": "The simplification strategies preserve the linear map", "statement": "interior_clifford_simp, clifford_simp and full_reduce return a diagram with the same interface and value, for every ZX-diagram and every schedule.", "quantifier": "every ZX-diagram, every sequence of set-iteration orders during the whole run", "why_tests_cant": "composition of unbounded loops under arbitrary schedules", "anchors": ["pyzx/simplify.py:interior_clifford_simp", "pyzx/simplify.py:clifford_simp", "pyzx/simplify.py:full_reduce"]}
{"id": "C14", "title": "The simplification loops terminate", "statement": "spider_simp, id_simp, lcomp_simp, pivot_simp and interior_clifford_simp never loop forever.", "quantifier": "every diagram and every schedule", "why_tests_cant": "non-termination cannot be observed by finite tests", "anchors": ["pyzx/simplify.py:simp", "pyzx/simplify.py:interior_clifford_simp"]}
{"id": "C15", "title": "Removing isolated vertices keeps the value", "statement": "remove_isolated_vertices removes exactly the components of one or two non-boundary vertices and multiplies the scalar by their value.", "quantifier": "every ZX-diagram", "why_tests_cant": "the closed-form scalars are piecewise over all rational phases", "anchors": ["pyzx/graph/base.py:BaseGraph.remove_isolated_vertices"]}
{"id": "C16", "title": "Gaussian elimination over GF(2)", "statement": "Mat2.gauss(full_reduce, x, y, blocksize) leaves a matrix in row echelon (reduced row echelon when full_reduce) form, returns the number of pivots, has the same row space, and records in x the same row operations and in y the inverse column operations; for every block size.", "quantifier": "all matrices of all sizes, all block sizes, all tracker objects", "why_tests_cant": "the chunked elimination has interacting loops over unbounded sizes", "anchors": ["pyzx/linalg.py:Mat2.gauss"]}
{"id": "C17", "title": "rank() is the rank", "statement": "rank() equals the largest number of linearly independent rows and does not modify its argument.", "quantifier": "all matrices over GF(2)", "why_tests_cant": "infinitely many matrices", "anchors": ["pyzx/linalg.py:Mat2.rank"]}
{"id": "C18", "title": "inverse() is a two-sided inverse or None exactly when singular", "statement": "inverse() returns N with N*M = M*N = I when the square matrix M is invertible, and None otherwise.", "quantifier": "all square matrices over GF(2)", "why_tests_cant": "the None branch is a completeness claim", "anchors": ["pyzx/linalg.py:Mat2.inverse"]}
{"id": "C19", "title": "solve() is sound and complete", "statement": "solve(b) returns x with A x = b if and only if the system has a solution, None otherwise.", "quantifier": "all matrices and right-hand sides", "why_tests_cant": "completeness cannot be tested", "anchors": ["pyzx/linalg.py:Mat2.solve"]}
{"id": "C20", "title": "nullspace() spans the kernel", "statement": "nullspace() returns linearly independent vectors, each in the kernel, spanning the kernel.", "quantifier": "all matrices over GF(2)", "why_tests_cant": "spanning is a universal claim", "anchors": ["pyzx/linalg.py:Mat2.nullspace"]}
{"id": "C21", "title": "to_cnots() synthesises the parity matrix", "statement": "the CNOT list returned by to_cnots() for an invertible square matrix, replayed with row additions as the callers in the library do, reduces the matrix to the identity; the returned gates are never degenerate (control different from target).", "quantifier": "all invertible matrices, all optimise/blocksize settings", "why_tests_cant": "all sizes and pivot patterns", "anchors": ["pyzx/linalg.py:Mat2.to_cnots", "pyzx/linalg.py:CNOTMaker"]}
{"id": "C22", "title": "Linear algebra results do not depend on call history", "statement": "gauss/rank/inverse/solve/nullspace called with default arguments return a result depending only on the matrix, although gauss keeps a list in a mutable default argument across calls.", "quantifier": "every history of previous calls in the process", "why_tests_cant": "state leaks through a mutable default argument; only adversarial histories could reveal it", "anchors": ["pyzx/linalg.py:Mat2.gauss (pivot_cols default)"]}
{"id": "C23", "title": "permutation_as_swaps realises the permutation", "statement": "applying the returned swaps in order realises exactly the given permutation, with fewer swaps than points.", "quantifier": "all permutations of all sizes", "why_tests_cant": "n! inputs for every n", "anchors": ["pyzx/extract.py:permutation_as_swaps", "pyzx/extract.py:graph_to_swaps"]}
{"id": "C24", "title": "Gate decompositions are exact up to global phase", "statement": "for every composite gate the list returned by to_basic_gates() denotes the same unitary up to global phase on any qubits and for any phase.", "quantifier": "all gates, all phases, all (distinct) qubit positions, arbitrary state of the other qubits", "why_tests_cant": "phases are a continuum and the embedding is arbitrary", "anchors": ["pyzx/circuit/gates.py:*.to_basic_gates"]}
{"id": "C25", "title": "Circuit.adjoint is the inverse", "statement": "for every circuit c, running c and then c.adjoint() is the identity up to global phase.", "quantifier": "all circuits over all gate types, all phases", "why_tests_cant": "unbounded circuits, all gate kinds", "anchors": ["pyzx/circuit/gates.py:Gate.to_adjoint", "pyzx/circuit/__init__.py:Circuit.adjoint"]}
{"id": "C26", "title": "Circuit to graph conversion is exact", "statement": "Circuit.to_graph() is a ZX-diagram whose linear map equals the unitary of the circuit (basic gates; composite gates through their decomposition).", "quantifier": "all circuits of all lengths and widths", "why_tests_cant": "unbounded", "anchors": ["pyzx/circuit/graphparser.py:circuit_to_graph", "pyzx/circuit/gates.py:*.to_graph"]}
{"id": "C27", "title": "verify_equality only answers True for equal circuits", "statement": "if c1.verify_equality(c2) returns True then the circuits implement the same map up to global scalar.", "quantifier": "all pairs of circuits", "why_tests_cant": "soundness of a prover is a universal claim", "anchors": ["pyzx/circuit/__init__.py:Circuit.verify_equality", "pyzx/graph/base.py:BaseGraph.is_id"]}
{"id": "C28", "title": "Graph composition is matrix multiplication", "statement": "g.compose(h) has value sum over the shared wires of value(h)*value(g), scalars multiplied.", "quantifier": "all pairs of well-formed diagrams with matching arity", "why_tests_cant": "unbounded graphs; wires directly connecting boundaries are easily missed", "anchors": ["pyzx/graph/base.py:BaseGraph.compose"]}
{"id": "C29", "title": "Graph tensor is the Kronecker product", "statement": "g.tensor(h) has value value(g)*value(h) and concatenated interfaces.", "quantifier": "all pairs of diagrams", "why_tests_cant": "unbounded graphs", "anchors": ["pyzx/graph/base.py:BaseGraph.tensor"]}
{"id": "C30", "title": "Graph copy is equal and adjoint is conjugate transpose", "statement": "g.copy() has the same value; g.adjoint() has swapped interface and complex conjugate value, scalar included.", "quantifier": "all diagrams", "why_tests_cant": "unbounded graphs and all phases", "anchors": ["pyzx/graph/base.py:BaseGraph.copy", "pyzx/graph/base.py:BaseGraph.adjoint"]}
{"id": "C31", "title": "Clones are independent of their original", "statement": "editing a clone never changes what can be observed of the original graph, and a clone observes the same as the original.", "quantifier": "all histories of edits on either object", "why_tests_cant": "aliasing needs particular histories to show", "anchors": ["pyzx/graph/graph_s.py:GraphS.clone", "pyzx/graph/multigraph.py:Multigraph.clone"]}
{"id": "C32", "title": "Applying a computed diff reproduces the target graph", "statement": "GraphDiff(g1,g2).apply_diff(g1) has the vertices, edges, types, phases and positions of g2.", "quantifier": "all pairs of graphs", "why_tests_cant": "pairs of unbounded graphs", "anchors": ["pyzx/graph/diff.py:GraphDiff"]}
{"id": "C33", "title": "Stored phases denote the requested angle modulo 2 pi", "statement": "after set_phase/add_to_phase the stored phase denotes the requested angle modulo 2 pi, for numeric and symbolic phases under every assignment of the variables.", "quantifier": "all rationals, all polynomials, all assignments", "why_tests_cant": "assignments are a continuum", "anchors": ["pyzx/graph/graph_s.py:GraphS.set_phase", "pyzx/symbolic.py:Poly.__mod__"]}
{"id": "C34", "title": "Multigraph backend parallel edges", "statement": "Multigraph.add_edge with automatic simplification keeps the value of the diagram with the edge added, for parallel edges and self-loops, without raising.", "quantifier": "all multigraphs, all edge types", "why_tests_cant": "unbounded graphs", "anchors": ["pyzx/graph/multigraph.py:Multigraph.add_edge"]}
{"id": "C35", "title": "Circuit extraction returns an equivalent circuit", "statement": "if extract_circuit returns a circuit on a graph-like diagram of an invertible map whose gadget hubs (neighbours of degree-one spiders) have phase 0 or pi, only spiders as neighbours and are pairwise unconnected, then that circuit implements the diagram's map up to a non-zero scalar (with up_to_perm: up to a permutation of the wires). Hence circuit -> to_graph -> clifford_simp/full_reduce -> extract_circuit returns an equivalent circuit.", "quantifier": "all such diagrams of any size, all iteration orders, all CNOT choices (every optimize_cnots strategy), optimize_czs and up_to_perm on or off", "why_tests_cant": "unbounded graphs; result depends on set order", "anchors": ["pyzx/extract.py:extract_circuit"]}
{"id": "C36", "title": "gflow returns a generalised flow", "statement": "if gflow(g) is not None, the returned correction sets and layers satisfy the gflow conditions on the open graph.", "quantifier": "all graphs", "why_tests_cant": "unbounded graphs", "anchors": ["pyzx/gflow.py:gflow"]}
{"id": "C37", "title": "CNOT tracker matrix equals its circuit", "statement": "after any sequence of row_add/col_add calls the tracked parity matrix equals the parity matrix of the recorded CNOT circuit.", "quantifier": "all histories", "why_tests_cant": "unbounded histories", "anchors": ["pyzx/routing/parity_maps.py:CNOT_tracker"]}
{"id": "C38", "title": "Magic state decompositions are exact", "statement": "replacing 1, 2 or 6 T-like spiders by the stabiliser decomposition yields a sum of diagrams whose values add up to the original value.", "quantifier": "all diagrams and all choices of spiders", "why_tests_cant": "numeric tests only check a few diagrams up to float error", "anchors": ["pyzx/simulate.py:replace_magic_states"]}
{"id": "C39", "title": "split_phases keeps the gate", "statement": "ZPhase/XPhase.split_phases returns gates with the same product.", "quantifier": "all phases", "why_tests_cant": "all rationals", "anchors": ["pyzx/circuit/gates.py:ZPhase.split_phases", "pyzx/circuit/gates.py:XPhase.split_phases"]}
{"id": "C40", "title": "Symbolic arithmetic respects evaluation", "statement": "adding, multiplying, negating and substituting symbolic phases commutes with evaluating them modulo 2.", "quantifier": "all polynomials and assignments", "why_tests_cant": "infinite", "anchors": ["pyzx/symbolic.py:Poly"]}
{"id": "C41", "title": "Matchers honour the requested maximum number of matches", "statement": "match_*_parallel(g, num=k) returns at most k matches; where the limit works, exactly the first k matches of the unlimited call. (Refuted for match_lcomp_parallel and match_pivot_gadget.)", "quantifier": "all graphs, all k", "why_tests_cant": "all graphs", "anchors": ["pyzx/rules.py:match_spider_parallel", "pyzx/rules.py:match_ids_parallel", "pyzx/rules.py:match_pivot_parallel", "pyzx/rules.py:match_bialg_parallel", "pyzx/rules.py:match_pivot_boundary", "pyzx/rules.py:match_lcomp_parallel", "pyzx/rules.py:match_pivot_gadget"]}
{"id": "C42", "title": "Plugging states and effects", "statement": "apply_state/apply_effect turn the selected inputs/outputs into the named basis state or effect (normalised) and keep the remaining interface.", "quantifier": "all diagrams and all strings", "why_tests_cant": "all strings", "anchors": ["pyzx/graph/base.py:BaseGraph.apply_state", "pyzx/graph/base.py:BaseGraph.apply_effect"]}
{"id": "C43", "title": "Phase strings parse back", "statement": "string_to_phase(phase_to_s(p)) equals p modulo 2 for phases with denominator at most 256.", "quantifier": "all such rationals", "why_tests_cant": "infinite numerators", "anchors": ["pyzx/utils.py:phase_to_s", "pyzx/graph/jsonparser.py:string_to_phase"]}
{"id": "C44", "title": "Circuit statistics", "statement": "Circuit.depth() is the longest chain of gates sharing qubits, and is invariant under swapping adjacent gates on disjoint qubits.", "quantifier": "all circuits", "why_tests_cant": "unbounded", "anchors": ["pyzx/circuit/__init__.py:Circuit.depth"]}
{"id": "C45", "title": "Unfusing a spider keeps the value", "statement": "unspider(g, [u, neighbours, phase]) on a Z or X vertex u returns normally, keeps the value of the diagram exactly, joins the new vertex to u and to exactly the given neighbours, and splits the phase as documented.", "quantifier": "all diagrams, all subsets of neighbours, all phases", "why_tests_cant": "unbounded", "anchors": ["pyzx/rules.py:unspider"]}
{"id": "C46", "title": "to_graph_like makes the diagram graph-like without changing it", "statement": "to_graph_like(g) stops, keeps interface and value, and its final assertion never fails: the result is strictly graph-like. Premise: no Hadamard wire joins two boundaries directly (refuted without it).", "quantifier": "all ZX-diagrams, all schedules", "why_tests_cant": "unbounded", "anchors": ["pyzx/simplify.py:to_graph_like", "pyzx/simplify.py:is_graph_like"]}
{"id": "C47", "title": "Greedy row reductions really isolate a row", "statement": "greedy_reduction(m) and greedy_reduction_flat(m) never raise; the row additions they return, applied to m, leave some row with exactly one 1; with at most 16 rows they return None only if no non-empty set of rows adds up to a vector with exactly one 1. greedy_two_reduction(m) never raises and the additions it returns leave two different rows with exactly one 1 each.", "quantifier": "all matrices over GF(2) with fewer than 10000 columns, all set iteration orders", "why_tests_cant": "exponentially many matrices and subsets", "anchors": ["pyzx/extract.py:find_minimal_sums", "pyzx/extract.py:greedy_reduction", "pyzx/extract.py:flat_indices", "pyzx/extract.py:greedy_two_reduction"]}
{"id": "C48", "title": "Placing circuits on qubits", "statement": "c.add_circuit(d, mask=m) runs c and then d with qubit i of d placed on qubit m[i] of c and nothing else touched; c.tensor(d) runs d on fresh qubits numbered after those of c.", "quantifier": "all circuits c and d, all masks of distinct qubits", "why_tests_cant": "unbounded circuits and masks, arbitrary states of the untouched qubits", "anchors": ["pyzx/circuit/__init__.py:Circuit.add_circuit", "pyzx/circuit/__init__.py:Circuit.tensor", "pyzx/circuit/gates.py:Gate.reposition"]}
{"id": "C49", "title": "is_id recognises identity diagrams", "statement": "if g.is_id() returns True then the diagram is a tensor of identity wires from input j to output j, up to its scalar.", "quantifier": "all diagrams", "why_tests_cant": "unbounded graphs; wires of other kinds and extra structure must be excluded for all of them", "anchors": ["pyzx/graph/base.py:BaseGraph.is_id"]}
{"id": "C50", "title": "merge is a disjoint union", "statement": "g.merge(h) keeps g's own vertices and wires, adds a fresh copy of every vertex and wire of h with the same types and phases, adds no other wire, returns the new names in the order of h, and keeps g's interface; the value is the product of the values up to h's scalar.", "quantifier": "all pairs of diagrams", "why_tests_cant": "unbounded graphs; name clashes depend on the history of both graphs", "anchors": ["pyzx/graph/base.py:BaseGraph.merge"]}
{"id": "C51", "title": "subgraph_from_vertices is the induced subgraph", "statement": "g.subgraph_from_vertices(verts) has one vertex per listed vertex, with the same type and phase, and exactly the wires of g between listed vertices.", "quantifier": "all diagrams and all lists of distinct vertices in any order", "why_tests_cant": "all subsets of unbounded graphs", "anchors": ["pyzx/graph/base.py:BaseGraph.subgraph_from_vertices"]}
{"id": "C52", "title": "cnot_depth is attainable", "statement": "the number returned by CNOT_tracker.cnot_depth() is enough layers for its CNOT gates, gates sharing a qubit lying in increasing layers.", "quantifier": "all histories", "why_tests_cant": "unbounded histories; undercounting needs three overlapping gates in a row", "anchors": ["pyzx/routing/parity_maps.py:CNOT_tracker.cnot_depth"]}
{"id": "C53", "title": "Simplifiers do not increase the T-count", "statement": "tcount(g) is the number of spiders whose phase is no multiple of pi/2; after spider_simp, id_simp, lcomp_simp, pivot_simp, interior_clifford_simp, clifford_simp, pivot_gadget_simp, pivot_boundary_simp, gadget_simp, supplementarity_simp or full_reduce it is at most what it was before.", "quantifier": "all ZX-diagrams (graph-like ones where the simplifier requires it), all phases, all matching orders", "why_tests_cant": "all diagrams and all orders in which Python sets can be iterated; one leaked phase in a rarely taken branch breaks it", "anchors": ["pyzx/simplify.py:tcount", "pyzx/simplify.py:full_reduce", "pyzx/rules.py"]}
{"id": "C54", "title": "reduce_scalar keeps the map", "statement": "simplify.reduce_scalar(g) returns a graph-like diagram that denotes the same linear map (up to a non-zero factor; exactly for phases that are multiples of pi/4) and has at most the T-count it had before; the only exception it can raise is KeyError.", "quantifier": "all ZX-diagrams without X spiders, all phases, all matching orders", "why_tests_cant": "all diagrams and all set iteration orders; the KeyError needs supplementarity to meet three isolated spiders that earlier steps of the same call have produced", "anchors": ["pyzx/simplify.py:reduce_scalar", "pyzx/rules.py:match_supplementarity", "pyzx/rules.py:apply_supplementarity"]}
{"id": "C55", "title": "Stabilizer decompositions add up and are as small as promised", "statement": "find_stabilizer_decomp(g) returns diagrams of T-count 0 with the inputs and outputs of g whose linear maps add up to that of g, at most max_terms_needed(g) of them; SumGraph.full_reduce keeps the sum and drops only terms that are zero.", "quantifier": "all diagrams of Z spiders with phases that are multiples of pi/4, all random choices of spiders and all matching orders", "why_tests_cant": "random choices at every level of the recursion; too many terms only appear at twelve T spiders, when a reduction removes one T spider from a term", "anchors": ["pyzx/simulate.py:find_stabilizer_decomp", "pyzx/simulate.py:max_terms_needed", "pyzx/simulate.py:SumGraph"]}
{"id": "C56", "title": "basic_optimization keeps the circuit's map", "statement": "optimize.basic_optimization(c, do_swaps), and Optimizer(c).parse_circuit with any max_iterations, with or without separate_correction, terminates without an exception on circuits of ZPhase, Z, S, T, NOT, HAD, CNOT and CZ gates, and returns a circuit of such gates on the same qubits with the same unitary up to a global phase (followed by the separate correction of NOT and SWAP gates, if asked for). Any other gate with a target raises TypeError.", "quantifier": "all such circuits of any size, all phases, all iteration bounds", "why_tests_cant": "the optimizer delays NOTs, Zs, Hadamards and SWAPs over the whole circuit and matches gates by what commutes with what; the set of circuits that mix all of these cases is unbounded", "anchors": ["pyzx/optimize.py:basic_optimization", "pyzx/optimize.py:Optimizer.parse_circuit", "pyzx/optimize.py:Optimizer.parse_forward", "pyzx/optimize.py:Optimizer.topological_sort_gates", "pyzx/optimize.py:Optimizer.add_cz", "pyzx/optimize.py:Optimizer.add_cnot", "pyzx/optimize.py:Optimizer.parse_gate"]}
{"id": "C57", "title": "tensorfy computes the linear map of the diagram", "statement": "tensorfy(g) returns an array with one axis of size 2 per output, then one per input, whose entries are the values of the linear map of g (times a positive factor and without g.scalar if preserve_scalar=False), whatever rows the vertices are placed on; tensor_to_matrix turns it into the matrix with the first qubit most significant. It does not raise on well-formed ZX-diagrams.", "quantifier": "all diagrams of Z and X spiders of any size and arity, any phases, edge types, scalars, row placements and numbers of inputs and outputs", "why_tests_cant": "the bookkeeping of axis positions depends on the order in which spiders of arbitrary degree are contracted; numpy's memory limits tests to about nine qubits", "anchors": ["pyzx/tensor.py:tensorfy", "pyzx/tensor.py:pop_and_shift", "pyzx/tensor.py:Z_to_tensor", "pyzx/tensor.py:X_to_tensor", "pyzx/tensor.py:tensor_to_matrix"]}
{"id": "C58", "title": "Composing, adjoining and comparing tensors", "statement": "compose_tensors(t1, t2) is the matrix product t2 t1, adjoint(t) is the conjugate transpose, compare_tensors is True exactly for equal (preserve_scalar) or proportional maps, find_scalar_correction returns the factor between proportional tensors.", "quantifier": "all arrays whose axes have size 2, of any rank, and the tensors of any two diagrams", "why_tests_cant": "needs all ranks and entries; the exceptional cases (zero tensors, arrays of different rank) are not random", "anchors": ["pyzx/tensor.py:compose_tensors", "pyzx/tensor.py:adjoint", "pyzx/tensor.py:compare_tensors", "pyzx/tensor.py:find_scalar_correction"]}
{"id": "C59", "title": "Circuit.to_tensor and to_matrix give the circuit's unitary", "statement": "For every circuit c, c.to_tensor() and c.to_matrix() return without raising, and their entries are the entries of the unitary of the gate sequence up to one global phase (none if all gates are basic). compare_tensors(c1, c2) on circuits with equally many qubits never raises and is True exactly when the two unitaries are proportional.", "quantifier": "all circuits with any number of qubits and gates, any phases, any iteration order of the label set", "why_tests_cant": "tests compare two paths through the same code and stop at a few qubits; here the matrix is compared with an independent semantics of gates, for all circuits", "anchors": ["pyzx/circuit/__init__.py:Circuit.to_tensor", "pyzx/circuit/__init__.py:Circuit.to_matrix", "pyzx/tensor.py:compare_tensors", "pyzx/tensor.py:is_unitary"]}
{"id": "C60", "title": "The interactive rules color_change, fuse and remove_id keep the map", "statement": "basicrules.color_change(g, v), fuse(g, v1, v2) and remove_id(g, v) never raise on an existing vertex of a well-formed ZX-diagram, return True exactly when the rule applies, keep the linear map of g (scalar included) and remove exactly the vertices they should; color_change_diagram(g) swaps all colours and gives the map with a Hadamard on every input and output.", "quantifier": "all ZX-diagrams whose boundary vertices have one neighbour, all vertices", "why_tests_cant": "all diagrams, degrees and phases, also parallel edges created by fusing", "anchors": ["pyzx/basicrules.py:color_change", "pyzx/basicrules.py:color_change_diagram", "pyzx/basicrules.py:fuse", "pyzx/basicrules.py:remove_id"]}
{"id": "C61", "title": "Strong complementarity and state copy keep the map, scalar included", "statement": "strong_comp(g, v1, v2) on a Z and an X spider with Pauli phases joined by a plain wire replaces them by a complete bipartite graph and keeps the linear map exactly; copy_X, copy_Z keep the map and return True exactly when check_copy_X, check_copy_Z do; check_copy_Z leaves the diagram as it was.", "quantifier": "all ZX-diagrams whose boundary vertices have one neighbour, all vertices, degrees and edge types", "why_tests_cant": "the scalar depends on the product of both degrees, and the sign on both phases", "anchors": ["pyzx/basicrules.py:strong_comp", "pyzx/basicrules.py:copy_X", "pyzx/basicrules.py:copy_Z", "pyzx/basicrules.py:check_copy_Z"]}
{"id": "C62", "title": "Pushing a pi through a spider keeps the map up to a phase", "statement": "pi_commute_Z(g, v) and pi_commute_X(g, v) on a spider all of whose neighbours can take up the pi negate its phase alpha, add pi to every neighbour, and change the linear map by the factor e^{-i alpha} only.", "quantifier": "all ZX-diagrams whose boundary vertices have one neighbour, all spiders with such neighbours", "why_tests_cant": "all degrees and phases", "anchors": ["pyzx/basicrules.py:pi_commute_Z", "pyzx/basicrules.py:pi_commute_X"]}
{"id": "C63", "title": "todd_simp keeps the map and adds no T gates", "statement": "todd_simp(gates, qubits) on a list of ZPhase gates with multiples of pi/4, CZ and CNOT gates returns a list of such gates with the same unitary (global phase included), the identity permutation, and a T-count that is not larger, whatever random.shuffle does; it does not raise. (Refuted outside: one qubit always raises AssertionError, SWAP/XCX are taken for CZ, smaller phases are dropped.)", "quantifier": "all gate lists over 2 to 499 qubits, all shuffles", "why_tests_cant": "random choices, unbounded gate lists, and the search for a TODD match depends on all columns", "anchors": ["pyzx/todd.py:todd_simp", "pyzx/todd.py:phase_gates_to_poly", "pyzx/parity_network.py:parity_network"]}
{"id": "C64", "title": "todd_iter keeps the signature tensor and the Clifford correction exists", "statement": "todd_iter(m) terminates, returns a matrix without zero or repeated columns and with no more columns than remove_trivial_cols leaves, and with the same third-order signature tensor; MultiLinearPoly.to_clifford of the difference then never raises and gives S, Z and CZ gates whose phases are the difference of the two phase polynomials modulo 2 pi.", "quantifier": "all parity matrices, all shuffles", "why_tests_cant": "the invariant concerns all triples of rows and every sequence of TODD steps", "anchors": ["pyzx/todd.py:todd_iter", "pyzx/todd.py:do_todd_single", "pyzx/todd.py:remove_trivial_cols", "pyzx/todd.py:MultiLinearPoly.to_clifford"]}
{"id": "C65", "title": "parity_network realises every parity", "statement": "parity_network(n_qubits, parities) terminates and returns CNOTs on distinct qubits such that every non-zero parity in the list is the content of some qubit after some prefix of the CNOTs.", "quantifier": "all numbers of qubits, all lists of parities", "why_tests_cant": "termination and coverage for an unbounded stack of subproblems", "anchors": ["pyzx/parity_network.py:parity_network"]}
{"id": "C66", "title": "phase_block_optimize keeps the map and adds no T gates", "statement": "phase_block_optimize(circuit, pre_optimize=False) on circuits of ZPhase gates with multiples of pi/4, HAD, CNOT and CZ never raises and returns a circuit on the same qubits with the same unitary, global phase included, and a T-count that is not larger, whatever random.shuffle does. With pre_optimize=True (NOT gates also allowed) the same holds up to a global phase. Any other gate or phase raises TypeError. (Refuted: circuits on one qubit always raise AssertionError.)", "quantifier": "all such circuits over 2 to 499 qubits, all shuffles", "why_tests_cant": "unbounded circuits; the gates move past Hadamards in both directions, and the internal check 'Hadamards did not extract correctly' must never fire", "anchors": ["pyzx/optimize.py:phase_block_optimize", "pyzx/todd.py:todd_simp"]}
{"id": "C67", "title": "greedy_consume_gates splits off a block without changing the map", "statement": "greedy_consume_gates(gates, qubits) terminates without raising; the returned block (CNOT, CZ, phase gates only), followed by the returned Hadamards (on distinct qubits), followed by the gates left in the dictionary, has the same unitary as the gates given and the same number of T gates; unless there are no gates it makes progress.", "quantifier": "all circuits of ZPhase with multiples of pi/4, HAD, CNOT, CZ, any number of qubits", "why_tests_cant": "commutation past Hadamards depends on all earlier gates on two qubits; termination", "anchors": ["pyzx/optimize.py:greedy_consume_gates"]}
{"id": "C68", "title": "basic_optimization does not raise the T-count", "statement": "basic_optimization(circuit) on circuits of NOT, HAD, CNOT, CZ and phase gates with multiples of pi/4 returns a circuit whose phases are multiples of pi/4 and whose T-count is not larger.", "quantifier": "all such circuits, do_swaps on or off", "why_tests_cant": "the number of passes depends on the circuit; phases are merged, negated and moved", "anchors": ["pyzx/optimize.py:basic_optimization", "pyzx/optimize.py:Optimizer.parse_gate", "pyzx/optimize.py:Optimizer.topological_sort_gates"]}
{"id": "C69", "title": "Circuit.from_graph reads a drawn diagram correctly", "statement": "On a ZX diagram with n inputs and n outputs in which the i-th input and output are on qubit i, inputs come in rows before all other vertices and are not joined to each other, and every vertex has at most one wire to later rows, Circuit.from_graph(g, split_phases) either raises or returns a circuit on n qubits with valid gates whose unitary, times the diagram's scalar and (1/sqrt 2) for each two-qubit gate, is the linear map of the diagram exactly. It succeeds precisely when qubits are natural numbers, every non-input has exactly one wire from an earlier row and that is on its own qubit, and wires inside a row are Hadamard wires between Z spiders or plain wires between a Z and an X spider. (Refuted: a vertical Hadamard wire between X spiders, for which the code has a branch, raises KeyError because no gate is called CX.)", "quantifier": "all such diagrams of any size, both values of split_phases", "why_tests_cant": "diagrams of any size; the condition for success is an equivalence", "anchors": ["pyzx/circuit/graphparser.py:graph_to_circuit", "pyzx/circuit/__init__.py:Circuit.from_graph"]}
{"id": "C70", "title": "Circuit to diagram and back keeps the unitary", "statement": "For a circuit c without FSim gates, Circuit.from_graph(c.to_graph()) does not raise and returns a circuit on the same qubits with the same unitary up to a global phase. (Refuted for FSim: TypeError.)", "quantifier": "all circuits over the modelled gates on distinct qubits, both values of compress_rows and split_phases", "why_tests_cant": "unbounded circuits; absence of exceptions", "anchors": ["pyzx/circuit/__init__.py:Circuit.to_graph", "pyzx/circuit/__init__.py:Circuit.from_graph", "pyzx/circuit/graphparser.py:circuit_to_graph", "pyzx/circuit/graphparser.py:graph_to_circuit"]}
{"id": "C71", "title": "Circuits keep the norm, so proportional circuits differ by a phase only", "statement": "The map of every circuit keeps the norm of every state; consequently two circuits whose maps are proportional agree up to a global phase. In particular verify_equality answering True, and extract_circuit after full_reduce or clifford_simp, give circuits equal up to a phase and not only up to a non-zero factor.", "quantifier": "all circuits over the modelled gates, any number of qubits, all states", "why_tests_cant": "infinitely many circuits, phases and states", "anchors": ["pyzx/circuit/__init__.py:Circuit.verify_equality", "pyzx/extract.py:extract_circuit", "pyzx/circuit/gates.py:Gate.to_basic_gates"]}
{"id": "C72", "title": "Architecture-aware elimination only uses coupled qubits and records what it does", "statement": "Every CNOT that steiner_gauss or rec_steiner_gauss hands to the trackers x, y is between two qubits whose vertices are joined by an edge of the architecture's graph, and the final matrix is the initial one with exactly these row additions applied in order.", "quantifier": "all architectures (graph, placement), matrices, both values of full_reduce, all set iteration orders", "why_tests_cant": "unbounded architectures and matrices; hash order of sets", "anchors": ["pyzx/routing/steiner.py:steiner_gauss", "pyzx/routing/steiner.py:rec_steiner_gauss", "pyzx/routing/steiner.py:steiner_reduce_column", "pyzx/routing/architecture.py:Architecture.steiner_tree", "pyzx/routing/architecture.py:Architecture.rec_steiner_tree", "pyzx/routing/architecture.py:Architecture.floyd_warshall"]}
{"id": "C73", "title": "steiner_gauss without full_reduce gives row echelon form", "statement": "steiner_gauss(m, architecture) on an architecture with the identical placement that is a line or complete does not raise, leaves m in row echelon form and returns the number of pivots. The same form is reached on any architecture on which no Steiner tree ends in a qubit that was not asked for. (Refuted without that condition: on a square with a leg a Steiner point becomes a leaf and the result is not upper triangular.)", "quantifier": "all sizes, all rectangular matrices with one row per qubit, all set iteration orders", "why_tests_cant": "unbounded matrices and architectures; the failing case depends on the order of neighbours", "anchors": ["pyzx/routing/steiner.py:steiner_gauss", "pyzx/routing/architecture.py:Architecture.steiner_tree", "pyzx/routing/architecture.py:Architecture.floyd_warshall", "pyzx/routing/architecture.py:Architecture.pre_calc_distances"]}
{"id": "C74", "title": "steiner_gauss with full_reduce gives the reduced echelon form", "statement": "With full_reduce=True the final matrix is in reduced row echelon form. (Refuted: on two joined qubits the matrix [[1,1],[0,1]] is left unchanged, because the second phase takes a single value from the tree generator instead of all values up to None.)", "quantifier": "all architectures and matrices", "why_tests_cant": "the claim is universal; the refutation is a witness", "anchors": ["pyzx/routing/steiner.py:steiner_gauss"]}
{"id": "C75", "title": "bialg_simp and phase_free_simp keep the map up to a factor on diagrams without Hadamard wires between colours", "statement": "On a well-formed ZX diagram in which no Hadamard wire joins a Z and an X spider, bialg_simp(g) and phase_free_simp(g) stop without raising, keep inputs and outputs, keep the linear map up to one non-zero factor, and leave no wire to which the bialgebra rule applies. One round loses exactly sqrt(2)^((k-1)(l-1)) for each matched pair with k and l other neighbours. (Refuted: that the map is kept exactly, the scalar is never updated; and that the map is kept at all when a Hadamard wire joins the two colours: the state |+> becomes |0>.)", "quantifier": "all diagrams, all iteration orders of the edge set", "why_tests_cant": "unbounded diagrams; the simultaneous matches and the merging of the new parallel wires depend on the iteration order of a set", "anchors": ["pyzx/rules.py:match_bialg_parallel", "pyzx/rules.py:bialg", "pyzx/simplify.py:bialg_simp", "pyzx/simplify.py:phase_free_simp"]}
{"id": "C76", "title": "The local-complementation moves of the local search keep the map", "statement": "On a graph-like diagram (boundaries and Z spiders, Hadamard wires between the Z spiders, no loops) apply_rand_lc(g) keeps inputs, outputs and the linear map exactly, whatever spider is drawn, and gives a graph-like diagram again; it raises ZeroDivisionError exactly when there is no candidate (a Z spider with at least two neighbours, none of them a boundary). lc_cong(g, v) at a Z spider whose neighbours are all Z spiders does not raise and keeps the map up to one non-zero factor. (Refuted: lc_cong at a spider next to a boundary, where the map is lost; that lc_cong keeps the scalar.)", "quantifier": "all graph-like diagrams, all spiders, all random choices", "why_tests_cant": "unbounded diagrams and a random choice; a comparison up to a scalar of one run sees one choice", "anchors": ["pyzx/local_search/congruences.py:is_lc_vertex", "pyzx/local_search/congruences.py:lc_cong", "pyzx/local_search/congruences.py:lc_cong2", "pyzx/local_search/congruences.py:apply_rand_lc"]}
{"id": "C77", "title": "The pivot moves of the local search keep the map up to a factor", "statement": "On a graph-like diagram pivot_cong(g, v1, v2) along any wire between two Z spiders, boundaries allowed next to both, does not raise, gives a graph-like diagram with the same inputs and outputs, and keeps the linear map up to one non-zero factor, in whatever order Python lists the neighbour sets. The same holds for apply_rand_pivot(g) whatever wire is drawn; it raises ZeroDivisionError exactly when no wire joins two Z spiders. Any sequence of random moves keeps the map up to a factor. (Refuted: on diagrams with a plain wire between two Z spiders, which is_pivot_edge accepts, the map is lost.)", "quantifier": "all graph-like diagrams, all wires, all set orders, all sequences of random choices", "why_tests_cant": "unbounded diagrams, arbitrary neighbourhoods and random choices; the order of sets differs between runs", "anchors": ["pyzx/local_search/congruences.py:toggle_subset_connectivity", "pyzx/local_search/congruences.py:unfuse", "pyzx/local_search/congruences.py:is_pivot_edge", "pyzx/local_search/congruences.py:pivot_cong", "pyzx/local_search/congruences.py:apply_rand_pivot"]}
{"id": "C78", "title": "gadgetize keeps the map exactly", "statement": "gadget_extract.gadgetize(g) on any diagram without self-loops does not raise, keeps inputs, outputs and the linear map including the scalar, and afterwards every Z spider with more than one neighbour has a phase that is a multiple of pi/2. A second run changes nothing.", "quantifier": "all diagrams without self-loops, all spider colours and wire types, all phases", "why_tests_cant": "unbounded diagrams and phases; the loop edits the graph whose old vertex list it walks", "anchors": ["pyzx/gadget_extract.py:gadgetize", "pyzx/gadget_extract.py:is_clifford"]}
{"id": "C79", "title": "Measuring a qubit projects its output", "statement": "If exactly one vertex lies at the grid place pos and it is a boundary listed among the outputs, mbqc.measure(g, pos, Z, p) removes that output and replaces the map by its contraction with <0| + e^(i pi p) <1|, exactly; for X (an output with one wire) by the contraction with <+| + e^(i pi p) <-|. Measuring the same place again, or a place without a vertex, raises ValueError.", "quantifier": "all diagrams without self-loops, all places, all phases", "why_tests_cant": "unbounded diagrams and arbitrary phases", "anchors": ["pyzx/mbqc.py:measure"]}
{"id": "C80", "title": "apply_pauli puts the Pauli on the output", "statement": "If the output at pos hangs on one plain wire, mbqc.apply_pauli(g, pos, t) gives the old map followed by the Pauli t on that output: exactly for Z on a Z spider, X on an X spider, X on a Z spider or on a bare wire; up to the factor e^(-i pi p) for Z on an X spider of phase p that has one more plain wire, to a Z spider. Z on a bare wire, a measured qubit, a place without a vertex and a phase other than 0 and 1 raise ValueError; phase 0 changes nothing. (Refuted: behind a Hadamard wire neither Z nor X comes out right, not even up to a factor, and no error is raised.)", "quantifier": "all diagrams without self-loops, all places, all phases", "why_tests_cant": "unbounded diagrams; the wire type is only read by a full semantic comparison", "anchors": ["pyzx/mbqc.py:apply_pauli"]}
{"id": "C81", "title": "cluster_state builds the cluster state of the grid", "statement": "mbqc.cluster_state(m, n, inputs) does not raise. It has one output for every place of the grid, row by row, and one input for every listed place inside the grid; these are distinct and are all the boundary vertices. Its map is the product over all places of 1/sqrt(2) times a controlled sign with the place below and with the place to the right, and a wire from the input where there is one. measure and apply_pauli find the output of each place (q, r) at that place, so every qubit can be measured in either basis at any angle and can be given a Pauli Z or X, with the effect of C79 and C80.", "quantifier": "all m, n, all lists of places, all measurement angles", "why_tests_cant": "grids of any size; a full comparison of maps is exponential in the number of qubits", "anchors": ["pyzx/mbqc.py:cluster_state", "pyzx/mbqc.py:measure", "pyzx/mbqc.py:apply_pauli"]}
{"id": "C82", "title": "The stabilizers of a cluster state", "statement": "In the map of mbqc.cluster_state(m, n, inputs), at every place (q, r) that is not an input, flipping the bit of its output multiplies the value by the signs of the outputs of the neighbouring places (above, below, left, right, where they exist): X on a qubit together with Z on its neighbours changes nothing.", "quantifier": "all m, n, all lists of places, all places without an input, all boundary bits", "why_tests_cant": "grids of any size and all basis states", "anchors": ["pyzx/mbqc.py:cluster_state"]}
