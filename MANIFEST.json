{
 "claims": [
  {
   "property": "C01",
   "status": "proved",
   "theorems": [
    "C01_add_edge_sem",
    "C01_add_edge_returns",
    "C01_add_edge_raises"
   ],
   "note": "Meaning of add_edge for any existing edge, when it returns, and when it raises."
  },
  {
   "property": "C02",
   "status": "proved",
   "theorems": [
    "C02_history_store_ok",
    "C02_history_removed",
    "C02_set_type_absent_refuted"
   ],
   "note": "All histories of store operations where set_type/set_phase/add_to_phase address existing vertices; the refuted theorem shows that restriction is needed (set_type on an absent vertex damages the store)."
  },
  {
   "property": "C03",
   "status": "proved",
   "theorems": [
    "C03_add_power",
    "C03_add_phase",
    "C03_add_node",
    "C03_add_float",
    "C03_mult_with_scalar",
    "C03_copy",
    "C03_conjugate"
   ],
   "note": "Floats idealised as exact complex numbers."
  },
  {
   "property": "C04",
   "status": "proved",
   "theorems": [
    "C04_add_spider_pair_refuted",
    "C04_add_spider_pair_partial"
   ],
   "note": "The property is false: cos of the phase without pi. Refuted theorem gives the witness; the _partial theorem gives the exact value in all other cases."
  },
  {
   "property": "C05",
   "status": "proved",
   "theorems": [
    "C05_spider_simp",
    "C05_spider_simp_any",
    "C05_spider_simp_raises_refuted",
    "C05_spider_simp_scalar_refuted"
   ],
   "note": "Exact value when phases are multiples of pi/4; for other phases the value is kept up to a non-zero factor, because add_spider_pair (C04) records a wrong scalar (refuted theorem with witness). Totality needs every boundary to have exactly one neighbour; the raises_refuted theorem shows a diagram with a two-legged boundary on which it raises."
  },
  {
   "property": "C06",
   "status": "proved",
   "theorems": [
    "C06_id_simp",
    "C06_id_simp_any"
   ],
   "note": "Exact value when phases are multiples of pi/4; for other phases the value is kept up to a non-zero factor, because add_spider_pair (C04) records a wrong scalar (refuted theorem with witness). "
  },
  {
   "property": "C07",
   "status": "proved",
   "theorems": [
    "C07_lcomp_simp",
    "C07_lcomp_simp_any"
   ],
   "note": "Exact value when phases are multiples of pi/4; for other phases the value is kept up to a non-zero factor, because add_spider_pair (C04) records a wrong scalar (refuted theorem with witness). "
  },
  {
   "property": "C08",
   "status": "proved",
   "theorems": [
    "C08_pivot_gadget_simp",
    "C08_pivot_boundary_simp",
    "C08_pivot_simp",
    "C08_pivot_simp_any"
   ],
   "note": "Exact value when phases are multiples of pi/4; for other phases the value is kept up to a non-zero factor, because add_spider_pair (C04) records a wrong scalar (refuted theorem with witness). pivot_simp: every diagram, stops, never raises. pivot_gadget_simp and pivot_boundary_simp: diagrams whose Z-Z wires are Hadamard; every execution that ends returns normally with the right value (that the loops end is not shown for these two)."
  },
  {
   "property": "C09",
   "status": "proved",
   "theorems": [
    "C09_gadget_simp_partial",
    "C09_gadget_simp_refuted"
   ],
   "note": "The property is false for graph-like diagrams in general: gadgets whose axles are joined get a wrong scalar (refuted theorem with witness). The _partial theorem proves it when no two interior Pauli spiders of degree above one are adjacent, which is the situation in which full_reduce calls it. Exact value when phases are multiples of pi/4; for other phases the value is kept up to a non-zero factor, because add_spider_pair (C04) records a wrong scalar (refuted theorem with witness). "
  },
  {
   "property": "C10",
   "status": "proved",
   "theorems": [
    "C10_copy_simp",
    "C10_copy_round_exact",
    "C10_copy_scalar_refuted"
   ],
   "note": "Graph-like ZX diagrams in which boundaries have at most one wire (boundary phases allowed); every iteration order of the Python sets. The loop halts, ends with no copyable spider, and keeps the map up to a non-zero scalar; a round in which no two receivers are joined is exact. Exactness is refuted for two matched states on joined receivers."
  },
  {
   "property": "C11",
   "status": "proved",
   "theorems": [
    "C11_supplementarity_simp",
    "C11_domain",
    "C11_isolated_refuted"
   ],
   "note": "Graph-like ZX diagrams in which every non-Clifford spider has a neighbour (true after remove_isolated_vertices); every iteration order of the Python sets. The loop halts, returns normally, keeps the map (exactly, for multiples of pi/4; up to the scalar of removed isolated pairs otherwise) and leaves no pair. Three isolated spiders make it raise KeyError: refuted theorem."
  },
  {
   "property": "C12",
   "status": "proved",
   "theorems": [
    "C12_to_gh",
    "C12_to_rg"
   ],
   "note": "to_gh and to_rg with an arbitrary (state-dependent) predicate."
  },
  {
   "property": "C13",
   "status": "proved",
   "theorems": [
    "C13_clifford_simp",
    "C13_full_reduce",
    "C13_clifford_simp_filter_refuted",
    "C13_interior_clifford_simp"
   ],
   "note": "Exact value when phases are multiples of pi/4; for other phases the value is kept up to a non-zero factor, because add_spider_pair (C04) records a wrong scalar (refuted theorem with witness). interior_clifford_simp stops for every schedule and filter. For clifford_simp and full_reduce (all candidates, any order) every execution that ends returns normally with the right value; that their outer loops end is not shown. With a filter clifford_simp is wrong (refuted theorem with witness)."
  },
  {
   "property": "C14",
   "status": "proved",
   "theorems": [
    "C14_spider_simp_halts",
    "C14_id_simp_halts",
    "C14_lcomp_simp_halts",
    "C14_pivot_simp_halts",
    "C14_interior_clifford_halts"
   ],
   "note": "All schedules and filters."
  },
  {
   "property": "C15",
   "status": "proved",
   "theorems": [
    "C15_isolated_exact",
    "C15_remove_isolated_value_partial",
    "C15_remove_isolated_returns",
    "C15_remove_isolated_refuted",
    "C15_remove_isolated_raises_refuted"
   ],
   "note": "Exactly the isolated groups are removed; value exact for multiples of pi/4, wrong scalar otherwise (refuted)."
  },
  {
   "property": "C16",
   "status": "proved",
   "theorems": [
    "C16_gauss"
   ],
   "note": "All matrices (rows of equal length), all non-zero block sizes, any history; trackers are any objects, the matrix trackers are shown to receive G x and y G^-1. Block size 0 raises ZeroDivisionError in the model as in Python."
  },
  {
   "property": "C17",
   "status": "proved",
   "theorems": [
    "C17_rank",
    "C17_factor"
   ],
   "note": "Also the factorisation returned by factor()."
  },
  {
   "property": "C18",
   "status": "proved",
   "theorems": [
    "C18_inverse"
   ],
   "note": ""
  },
  {
   "property": "C19",
   "status": "proved",
   "theorems": [
    "C19_solve"
   ],
   "note": "b has one column and as many rows as the matrix."
  },
  {
   "property": "C20",
   "status": "proved",
   "theorems": [
    "C20_nullspace"
   ],
   "note": "Pure Python path (the optional C extension is not modelled). Also rank + nullity = columns."
  },
  {
   "property": "C21",
   "status": "proved",
   "theorems": [
    "C21_to_cnots",
    "C21_to_cnots_optimize",
    "C21_single_qubit_refuted"
   ],
   "note": "Without optimize: all invertible matrices. With optimize: any result is right, and a result is returned for 2 to 499 rows. The property is false on 1x1 matrices for optimize=True (AssertionError) and use_log_blocksize=True (ZeroDivisionError): refuted theorem."
  },
  {
   "property": "C22",
   "status": "proved",
   "theorems": [
    "C22_gauss",
    "C22_rank",
    "C22_factor",
    "C22_inverse",
    "C22_solve",
    "C22_nullspace",
    "C22_to_cnots"
   ],
   "note": "The content of the shared default list is an arbitrary argument of the model."
  },
  {
   "property": "C23",
   "status": "proved",
   "theorems": [
    "C23_permutation_as_swaps",
    "C23_prepended"
   ],
   "note": "permutation_as_swaps for every permutation dictionary, both for swaps applied in order and prepended one by one as graph_to_swaps does. The wire handling of graph_to_swaps itself is not modelled."
  },
  {
   "property": "C24",
   "status": "proved",
   "theorems": [
    "C24_gate_to_basic",
    "C24_circuit_to_basic"
   ],
   "note": "All unitary gate classes; FSim has no decomposition in the code (returns itself). Phases are exact rationals."
  },
  {
   "property": "C25",
   "status": "proved",
   "theorems": [
    "C25_circuit_adjoint",
    "C25_adjoint_refuted"
   ],
   "note": "Exact inverse for every gate class except U2, U3, CU3, CU, FSim, CSX, for which to_adjoint returns the gate itself: refuted theorem with a witness per class."
  },
  {
   "property": "C26",
   "status": "proved",
   "theorems": [
    "C26_circuit_to_graph",
    "C26_to_graph"
   ],
   "note": "circuit_to_graph for all gate classes without H-boxes, exact for basic gates and up to a unit factor (from the decompositions) otherwise; to_graph with the default zh=False for all gate classes. Every iteration order of the label set; compress_rows on and off."
  },
  {
   "property": "C27",
   "status": "proved",
   "theorems": [
    "C27_verify_phase",
    "C27_verify_equality",
    "C27_verify_up_to_swaps",
    "C27_verify_returns",
    "C27_verify_equality_refuted"
   ],
   "note": "Soundness of the answer True for first circuits whose gates have a correct to_adjoint (all classes except U2, U3, CU3, CU, FSim, CSX), with and without up_to_swaps, for every possible run of full_reduce; refuted for U2. Termination of full_reduce is not part of the claim."
  },
  {
   "property": "C28",
   "status": "proved",
   "theorems": [
    "C28_compose",
    "C28_plus",
    "C28_times",
    "C28_arity_error",
    "C28_compose_refuted",
    "C28_compose_caps_refuted"
   ],
   "note": "ZX diagrams without wires joining two outputs of the first or two inputs of the second diagram (for those compose raises KeyError: two refuted theorems). Boundary-to-boundary wires from input to output are covered."
  },
  {
   "property": "C29",
   "status": "proved",
   "theorems": [
    "C29_tensor"
   ],
   "note": "ZX diagrams on the GraphS backend; is_ground and vdata are not modelled."
  },
  {
   "property": "C30",
   "status": "proved",
   "theorems": [
    "C30_copy",
    "C30_adjoint"
   ],
   "note": "ZX diagrams on the GraphS backend; vdata is not modelled."
  },
  {
   "property": "C31",
   "status": "proved",
   "theorems": [
    "C31_edit",
    "C31_isolated",
    "C31_same",
    "C31_grounds_refuted",
    "C31_variable_types_refuted",
    "C31_vdata_refuted",
    "C31_vdata_fresh",
    "C31_multigraph_same",
    "C31_multigraph_refuted"
   ],
   "note": "GraphS objects as cells of a heap. For every object a program can make, every interleaved history of edits (all the mutators except set_vdata) of it and its clone leaves each showing what its own edits make of it, with the same exceptions. Refuted: the clone drops grounds and variable types; set_vdata on the clone of a vertex that has data changes the original (for a vertex without data it does not); Multigraph.clone shares the Edge objects. Phase tracking and merge_vdata are not modelled."
  },
  {
   "property": "C32",
   "status": "proved",
   "theorems": [
    "C32_diff_apply",
    "C32_interface_refuted"
   ],
   "note": "GraphS backend, numeric phases, graphs without self-loops; vdata, grounds and variable_types are not modelled. Every iteration order of the sets. Inputs, outputs and the scalar are not part of a diff: refuted theorem."
  },
  {
   "property": "C33",
   "status": "proved",
   "theorems": [
    "C33_symbolic_set",
    "C33_symbolic_add",
    "C33_symbolic_boolean",
    "C33_symbolic_refuted",
    "C33_set_phase_angle",
    "C33_add_to_phase_angle"
   ],
   "note": "Numeric phases: all rationals. Symbolic phases: all Boolean polynomials, and polynomials whose coefficients of monomials with continuous variables stay in [0,2); for other continuous ones the coefficients are wrongly reduced modulo 2: refuted theorem."
  },
  {
   "property": "C34",
   "status": "proved",
   "theorems": [
    "C34_histories",
    "C34_add_edge",
    "C34_exact",
    "C34_hopf_scalar_refuted",
    "C34_self_loop_raises",
    "C34_self_loop_refuted",
    "C34_add_listed",
    "C34_remove_listed",
    "C34_remove_absent",
    "C34_retype_listed",
    "C34_num_edges_refuted"
   ],
   "note": "As stated the property is false in two ways, both refuted by theorem: cancelling a pair of parallel wires multiplies the scalar by 1/4 instead of 1/2, and a self-loop on a spider raises KeyError. Proved for all stores: the exact value after add_edge, exactness when no two wires cancel, listing/removal/retyping of single wires, the store invariant over histories. No W nodes or Z-boxes."
  },
  {
   "property": "C35",
   "status": "proved",
   "theorems": [
    "C35_extract_phase",
    "C35_full_reduce_phase",
    "C35_clifford_simp_phase",
    "C35_extract_circuit",
    "C35_extract_up_to_perm",
    "C35_extract_invertible",
    "C35_after_full_reduce",
    "C35_after_clifford_simp",
    "C35_phase_on_hub_refuted"
   ],
   "note": "Partial correctness (if a circuit is returned) of the whole function including gadget pivoting, CZ sharing, swaps and up_to_perm, for every set order and every choice of CNOTs; also composed with to_graph and clifford_simp/full_reduce. A witness shows that the hub premise is needed. That extraction never raises on circuits (generalised flow) is not proved."
  },
  {
   "property": "C36",
   "status": "proved",
   "theorems": [
    "C36_gflow"
   ],
   "note": "Stronger than stated: gflow always returns normally, a result is a gflow with the least layers of all gflows, and None is returned only when no gflow exists; for every iteration order of the Python sets. Inputs and outputs are disjoint; grounds are not modelled."
  },
  {
   "property": "C37",
   "status": "proved",
   "theorems": [
    "C37_tracker",
    "C37_from_circuit",
    "C37_add_by_name_refuted"
   ],
   "note": "row_add, col_add, add_gate with a CNOT object, and from_circuit. add_gate('CNOT', c, t) by name records the gate but not the matrix: refuted theorem."
  },
  {
   "property": "C38",
   "status": "proved",
   "theorems": [
    "C38_sum",
    "C38_total",
    "C38_xspider_refuted"
   ],
   "note": "Every outcome of replace_magic_states (random choice = any list of different T-like spiders; ranked choice as coded) on any diagram without H-boxes whose T-like spiders are Z spiders: the values of the seven or two terms add up to the value of the diagram for all boundary bits, each term has the same interface and 6, 2 or 1 fewer T-like spiders. The identity over all bit vectors of the replaced spiders is decided once and for all in Z[w] with powers of sqrt 2. Refuted for T-like X spiders. Float constants are idealised as the exact numbers they approximate."
  },
  {
   "property": "C39",
   "status": "proved",
   "theorems": [
    "C39_zphase_split",
    "C39_xphase_split",
    "C39_circuit_split"
   ],
   "note": "All rational phases, exact equality."
  },
  {
   "property": "C40",
   "status": "proved",
   "theorems": [
    "C40_arithmetic",
    "C40_substitute",
    "C40_power",
    "C40_power_refuted",
    "C40_pauli_clifford",
    "C40_equality",
    "C40_equality_refuted"
   ],
   "note": "Rational coefficients (floats idealised, complex coefficients and division not modelled); real values for continuous variables. Powers above 2 are refuted in general and proved for is_pauli polynomials; == is sound but not complete (refuted)."
  },
  {
   "property": "C41",
   "status": "proved",
   "theorems": [
    "C41_spider",
    "C41_ids",
    "C41_pivot",
    "C41_bialg",
    "C41_pivot_boundary",
    "C41_lcomp_refuted",
    "C41_lcomp_ignored",
    "C41_pivot_gadget_refuted"
   ],
   "note": "Spider, identity, pivot and bialgebra matchers: exactly the first k; boundary pivots: at most k. Refuted for match_lcomp_parallel (the limit is ignored) and match_pivot_gadget (the counter is overwritten). The w-fusion and Z-box matchers are not modelled."
  },
  {
   "property": "C42",
   "status": "proved",
   "theorems": [
    "C42_apply_state",
    "C42_apply_effect",
    "C42_apply_state_refuted"
   ],
   "note": "All strings as long as the interface over 0, 1, +, -, /; a shorter string drops the remaining inputs: refuted theorem."
  },
  {
   "property": "C43",
   "status": "proved",
   "theorems": [
    "C43_spider_phase",
    "C43_hbox_phase",
    "C43_hbox_refuted",
    "C43_large_denominator",
    "C43_written_fraction"
   ],
   "note": "Rational phases; exact round trip (not only modulo 2). H-box phase 1 is lost (refuted). Above denominator 256 nothing printed is read as a number. float() and the parser of symbolic expressions are not modelled."
  },
  {
   "property": "C44",
   "status": "proved",
   "theorems": [
    "C44_depth",
    "C44_depth_swap",
    "C44_depth_refuted"
   ],
   "note": "Circuits on at least one qubit whose gates are of the classes depth looks at; other classes (YPhase, CRZ, ParityPhase, ...) are skipped: refuted theorem."
  },
  {
   "property": "C45",
   "status": "proved",
   "theorems": [
    "C45_unspider"
   ],
   "note": "ZX diagrams without grounds; exact equality of values; with the phase given or omitted."
  },
  {
   "property": "C46",
   "status": "proved",
   "theorems": [
    "C46_to_graph_like",
    "C46_is_graph_like",
    "C46_hadamard_wire_refuted"
   ],
   "note": "ZX diagrams without H-boxes whose boundary-to-boundary wires are plain; a Hadamard wire between boundaries loses its Hadamard: refuted theorem. is_graph_like is proved to decide the specification."
  },
  {
   "property": "C47",
   "status": "proved",
   "theorems": [
    "C47_greedy_reduction",
    "C47_greedy_reduction_flat",
    "C47_greedy_two_reduction"
   ],
   "note": "Fewer than 10000 columns (10000 is the sentinel of the search for the best pair). Completeness of None for at most 16 rows, where the 100000-iteration cut-off cannot strike."
  },
  {
   "property": "C48",
   "status": "proved",
   "theorems": [
    "C48_add_circuit_mask",
    "C48_tensor",
    "C48_mask_refuted"
   ],
   "note": "All gate classes except FSim (reposition raises AttributeError) and RZZ (control and target are left stale): refuted theorem."
  },
  {
   "property": "C49",
   "status": "proved",
   "theorems": [
    "C49_is_id",
    "C49_is_id_refuted"
   ],
   "note": "For diagrams all of whose wires are plain; is_id ignores edge types: refuted theorem with a Hadamard wire."
  },
  {
   "property": "C50",
   "status": "proved",
   "theorems": [
    "C50_merge",
    "C50_merge_scalar_refuted"
   ],
   "note": "Up to the scalar of the other diagram, which merge does not multiply in (refuted theorem). The list of edges returned by merge is not modelled."
  },
  {
   "property": "C51",
   "status": "proved",
   "theorems": [
    "C51_subgraph"
   ],
   "note": "Qubit and row positions are not part of the statement."
  },
  {
   "property": "C52",
   "status": "proved",
   "theorems": [
    "C52_cnot_depth_refuted"
   ],
   "note": "The property is false: refuted theorem (an overlapping gate is not recorded as part of the layer it starts)."
  },
  {
   "property": "C53",
   "status": "proved",
   "theorems": [
    "C53_count",
    "C53_full_reduce",
    "C53_clifford_simp",
    "C53_basic",
    "C53_gadgets",
    "C53_supplementarity"
   ],
   "note": "For every execution (all matching orders; with and without matchf where md ranges) on every diagram without H-boxes in which boundaries have one neighbour; pivot_gadget_simp and pivot_boundary_simp on graph-like diagrams, gadget_simp on graph-like diagrams without two adjacent interior Pauli spiders, supplementarity_simp on graph-like diagrams without isolated non-Clifford spiders, as in the theorems about their soundness."
  },
  {
   "property": "C54",
   "status": "proved",
   "theorems": [
    "C54_kept",
    "C54_tcount",
    "C54_raises_refuted"
   ],
   "note": "Every execution (all matching orders) on every diagram without H-boxes and X spiders in which boundaries have one neighbour. That the only exception is KeyError is proved; that none is raised is refuted by a closed diagram on which id_simp leaves four isolated spiders and supplementarity then matches one of them twice. Termination of the loop is not proved."
  },
  {
   "property": "C55",
   "status": "proved",
   "theorems": [
    "C55_full_reduce",
    "C55_sum",
    "C55_bound",
    "C55_bound_six",
    "C55_max_terms_refuted",
    "C55_other_phase_refuted"
   ],
   "note": "Every execution of find_stabilizer_decomp, over all random samples and matching orders, on diagrams of Z spiders and boundaries with phases multiples of pi/4, either raises the KeyError of C54 or returns Clifford diagrams that add up to g. The promised number of terms is proved for T-counts below twelve or not divisible by six, refuted for twelve (56 terms where max_terms_needed says 49), and replaced by a bound that the refuting execution reaches. Terms of a SumGraph are taken to be different objects. Refuted: with a phase that is no multiple of pi/4 a bare Exception is raised."
  },
  {
   "property": "C56",
   "status": "proved",
   "theorems": [
    "C56_sound",
    "C56_iterations",
    "C56_separate",
    "C56_unsupported",
    "C56_basic_gates_refuted"
   ],
   "note": "For all circuits of the supported gates, both values of do_swaps, any max_iterations, with termination and absence of exceptions. A gate's index and the gate lists per qubit are modelled; printing (quiet=False) is not. Refuted: that to_basic_gates makes a circuit acceptable, as the error message suggests (XPhase gates stay)."
  },
  {
   "property": "C57",
   "status": "proved",
   "theorems": [
    "C57_correct",
    "C57_unscaled",
    "C57_positions",
    "C57_matrix",
    "C57_isolated_x_refuted",
    "C57_late_input_refuted"
   ],
   "note": "For all diagrams of Z and X spiders (no H boxes, Z boxes, W nodes) in which each input comes before its neighbour in (row, index) order, no two inputs are connected and no X spider is isolated. Entries are exact complex numbers; numpy's tensordot and transpose are modelled. When the array is scaled up by 10^4 is left open. Refuted: with an isolated X spider, or with an input to the right of its neighbour, tensorfy raises ValueError."
  },
  {
   "property": "C58",
   "status": "proved",
   "theorems": [
    "C58_compose",
    "C58_adjoint",
    "C58_compare",
    "C58_find_scalar",
    "C58_broadcast_refuted",
    "C58_unitary_refuted"
   ],
   "note": "np.allclose and epsilon are taken as exact comparison. Refuted: that diagrams with different numbers of outputs compare as different (the arrays are broadcast), and that is_unitary rejects non-square maps."
  },
  {
   "property": "C59",
   "status": "proved",
   "theorems": [
    "C59_tensor",
    "C59_matrix",
    "C59_compare",
    "C59_compare_scalar"
   ],
   "note": "For all circuits of the modelled gates on distinct qubits (FSim with theta = pi/2); the set of qubit labels may be iterated in any order, which permutes the outputs. The phase is 1 when every gate is a Z/X rotation, H, CNOT, CZ or FSim, otherwise it comes from the decompositions of to_basic_gates."
  },
  {
   "property": "C60",
   "status": "proved",
   "theorems": [
    "C60_color_change",
    "C60_color_change_diagram",
    "C60_fuse",
    "C60_remove_id"
   ],
   "note": "For all ZX-diagrams without H-boxes, Z-boxes, W nodes; the Z-box branches and fuse_w are not modelled. In the code remove_id does not look at the vertex type, so it also removes an H-box of degree 2; H-boxes are outside the model."
  },
  {
   "property": "C61",
   "status": "proved",
   "theorems": [
    "C61_strong_comp",
    "C61_copy_X",
    "C61_copy_Z",
    "C61_check_copy_Z",
    "C61_copy_X_refuted"
   ],
   "note": "For all ZX-diagrams without H-boxes. Refuted: that copy_X returning True means that something was copied; when the neighbour's phase is not Pauli, nothing happens and True is returned."
  },
  {
   "property": "C62",
   "status": "proved",
   "theorems": [
    "C62_pi_commute_Z",
    "C62_pi_commute_X",
    "C62_exact_refuted"
   ],
   "note": "For spiders all of whose neighbours take up the pi; for the others the code changes the dictionary over which it iterates (lines 152-158), which is not modelled. Refuted: that the map is kept exactly, scalar included (the factor e^{i alpha} is dropped)."
  },
  {
   "property": "C63",
   "status": "proved",
   "theorems": [
    "C63_todd_simp",
    "C63_one_qubit_refuted",
    "C63_swap_refuted",
    "C63_small_phase_refuted"
   ],
   "note": "Whole function, with todd_iter, to_clifford, parity_network, inverse and to_cnots. The bound 499 comes from to_cnots(optimize=True). Refuted: one qubit always fails; SWAP is taken for CZ; a phase of pi/8 is dropped."
  },
  {
   "property": "C64",
   "status": "proved",
   "theorems": [
    "C64_todd_iter",
    "C64_to_clifford"
   ],
   "note": "random.shuffle is an arbitrary permutation."
  },
  {
   "property": "C65",
   "status": "proved",
   "theorems": [
    "C65_parity_network"
   ],
   "note": "Termination with an explicit measure."
  },
  {
   "property": "C66",
   "status": "proved",
   "theorems": [
    "C66_phase_block_optimize",
    "C66_pre_optimize",
    "C66_rejects",
    "C66_one_qubit_refuted"
   ],
   "note": "Whole function with both values of pre_optimize. The renaming by the permutation of todd_simp is left out, because C63 shows it to be the identity. The external program TOpt is not modelled. Refuted: one qubit always fails."
  },
  {
   "property": "C67",
   "status": "proved",
   "theorems": [
    "C67_greedy_consume_gates"
   ],
   "note": "Whole function; the dictionary is filled as phase_block_optimize does."
  },
  {
   "property": "C68",
   "status": "proved",
   "theorems": [
    "C68_basic_optimization_tcount"
   ],
   "note": "Complements the property about the map of basic_optimization."
  },
  {
   "property": "C69",
   "status": "proved",
   "theorems": [
    "C69_from_graph",
    "C69_succeeds",
    "C69_only_if",
    "C69_xx_refuted"
   ],
   "note": "Whole function for ZX diagrams without H-boxes. Qubit positions that are no natural numbers stop the model with ValueError, where the code makes a gate with a strange label."
  },
  {
   "property": "C70",
   "status": "proved",
   "theorems": [
    "C70_round_trip",
    "C70_fsim_refuted"
   ],
   "note": "The set of labels is iterated in increasing order, as CPython does for small integers. FSim refuted."
  },
  {
   "property": "C71",
   "status": "proved",
   "theorems": [
    "C71_norm",
    "C71_basis",
    "C71_proportional"
   ],
   "note": "The consequences for verify_equality and extract_circuit are stated as C27 and C35 theorems."
  },
  {
   "property": "C72",
   "status": "proved",
   "theorems": [
    "C72_steiner_gauss",
    "C72_rec_steiner_gauss"
   ],
   "note": "For rec_steiner_gauss the loops that may not end (lines 458, 468) have fuel; the statement is about runs that return."
  },
  {
   "property": "C73",
   "status": "proved",
   "theorems": [
    "C73_line_or_complete",
    "C73_no_dangling",
    "C73_upper_refuted"
   ],
   "note": "Identical placement; the general claim is refuted by a witness, the positive theorems give the condition and two classes of architectures."
  },
  {
   "property": "C74",
   "status": "proved",
   "theorems": [
    "C74_full_reduce_refuted"
   ],
   "note": "Refuted by a witness."
  },
  {
   "property": "C75",
   "status": "proved",
   "theorems": [
    "C75_bialg_simp",
    "C75_phase_free_simp",
    "C75_factor",
    "C75_scalar_refuted",
    "C75_hadamard_refuted"
   ],
   "note": "Up to one non-zero factor, on diagrams without a Hadamard wire between a Z and an X spider; the exact factor of one round is stated; exactness and the unrestricted form are refuted by witnesses."
  },
  {
   "property": "C76",
   "status": "proved",
   "theorems": [
    "C76_rand_lc",
    "C76_lc_cong",
    "C76_boundary_refuted",
    "C76_scalar_refuted"
   ],
   "note": "apply_rand_lc exactly, lc_cong up to one non-zero factor at spiders with Z neighbours only; next to a boundary, and for the scalar of lc_cong, refuted by witnesses."
  },
  {
   "property": "C77",
   "status": "proved",
   "theorems": [
    "C77_pivot_cong",
    "C77_rand_pivot",
    "C77_walk",
    "C77_simple_refuted"
   ],
   "note": "Up to one non-zero factor on graph-like diagrams, also for any sequence of random moves; with a plain wire between two Z spiders refuted by a witness."
  },
  {
   "property": "C78",
   "status": "proved",
   "theorems": [
    "C78_gadgetize",
    "C78_gadgetize_again"
   ],
   "note": "For all diagrams without self-loops, exactly, with the property reached and a second run without effect."
  },
  {
   "property": "C79",
   "status": "proved",
   "theorems": [
    "C79_measure_z",
    "C79_measure_x",
    "C79_measure_twice",
    "C79_measure_nowhere"
   ],
   "note": "For diagrams in which one vertex lies at the place; positions are exact rationals instead of floats; symbolic phases (ValueError) are not modelled."
  },
  {
   "property": "C80",
   "status": "proved",
   "theorems": [
    "C80_z_on_z",
    "C80_x_on_x",
    "C80_x_on_z",
    "C80_z_on_x",
    "C80_bare",
    "C80_phase",
    "C80_nowhere",
    "C80_measured",
    "C80_z_hadamard_refuted",
    "C80_x_hadamard_refuted"
   ],
   "note": "All four cases with plain wires; the case Z on an X spider up to a stated factor; behind a Hadamard wire refuted by witnesses."
  },
  {
   "property": "C81",
   "status": "proved",
   "theorems": [
    "C81_cluster",
    "C81_measure",
    "C81_pauli_z",
    "C81_measure_x",
    "C81_pauli_x"
   ],
   "note": "For grids of any size; positions are exact rationals instead of floats."
  },
  {
   "property": "C82",
   "status": "proved",
   "theorems": [
    "C82_stabilizer"
   ],
   "note": "Derived from the map proved for C81; at a place with an input the wire to the input is flipped as well, so such places are left out."
  }
 ]
}