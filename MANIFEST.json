{
 "claims": [
  {
   "property": "C01",
   "status": "proved",
   "theorems": [
    "C01_new",
    "C01_write",
    "C01_history",
    "C01_last"
   ],
   "note": "Every size up to 65535, any cell type, any history of in-range writes; index arithmetic is modelled mod 2^32."
  },
  {
   "property": "C02",
   "status": "proved",
   "theorems": [
    "C02_large",
    "C02_65536_refuted"
   ],
   "note": "For every size >= 65536 the cells are not independent; at 65536 a concrete in-range read is UB."
  },
  {
   "property": "C03",
   "status": "proved",
   "theorems": [
    "C03_C04_uniform",
    "C03_path"
   ],
   "note": "Every valid tree of uniform leaf depth."
  },
  {
   "property": "C04",
   "status": "proved",
   "theorems": [
    "C03_C04_uniform",
    "C04_children_sizes"
   ],
   "note": "Every valid tree of uniform leaf depth."
  },
  {
   "property": "C05",
   "status": "proved",
   "theorems": [
    "C05_no_error",
    "C05_refuted"
   ],
   "note": "The user's expectation is refuted by a concrete tree; construction itself never fails on valid trees."
  },
  {
   "property": "C06",
   "status": "proved",
   "theorems": [
    "C06_stops"
   ],
   "note": "Every leaf count and every parent vector."
  },
  {
   "property": "C19",
   "status": "proved",
   "theorems": [
    "C19_ordered_tiles"
   ],
   "note": "Every arithmetic, every table of size <= 65535."
  },
  {
   "property": "C23",
   "status": "proved",
   "theorems": [
    "C23_ordered_optimal",
    "C23_ordered_optimal_real"
   ],
   "note": "Every real-valued table, every kind of parameter."
  },
  {
   "property": "C20",
   "status": "proved",
   "theorems": [
    "C20_hier_cover"
   ],
   "note": "Every arithmetic, every well-built hierarchy with at least two nodes."
  },
  {
   "property": "C24",
   "status": "proved",
   "theorems": [
    "C24_hier_optimal",
    "C24_hier_optimal_real"
   ],
   "note": "Every real-valued vector, every cover; equally good covers refine the returned one."
  },
  {
   "property": "C21",
   "status": "proved",
   "theorems": [
    "C21_spatio_cover"
   ],
   "note": "Every arithmetic, every well-built hierarchy, every table with 1 to 65535 slices."
  },
  {
   "property": "C22",
   "status": "proved",
   "theorems": [
    "C22_ordered",
    "C22_hier",
    "C22_spatio"
   ],
   "note": "Every arithmetic."
  },
  {
   "property": "C26",
   "status": "proved",
   "theorems": [
    "C26_spatio_optimal",
    "C26_spatio_optimal_real",
    "C21_spatio_cover"
   ],
   "note": "Every real-valued table; the result is itself such a partition (C21_spatio_cover)."
  },
  {
   "property": "C27",
   "status": "proved",
   "theorems": [
    "C27_ordered",
    "C27_hier",
    "C27_spatio"
   ],
   "note": "Every real-valued table."
  },
  {
   "property": "C29",
   "status": "proved",
   "theorems": [
    "C29_ordered",
    "C29_hier",
    "C29_spatio"
   ],
   "note": "Every real-valued table."
  },
  {
   "property": "C07",
   "status": "proved",
   "theorems": [
    "C07_ordered_qualities",
    "C07_1d",
    "C07_2d",
    "C07_3d",
    "C07_4d",
    "C07_single_slices"
   ],
   "note": "Exact real arithmetic; every number of components and slices up to 65535."
  },
  {
   "property": "C08",
   "status": "proved",
   "theorems": [
    "C08_ordered_nonneg"
   ],
   "note": ""
  },
  {
   "property": "C09",
   "status": "proved",
   "theorems": [
    "C09_merge",
    "C09_whole_largest"
   ],
   "note": ""
  },
  {
   "property": "C10",
   "status": "proved",
   "theorems": [
    "C10_zero_loss"
   ],
   "note": ""
  },
  {
   "property": "C15",
   "status": "proved",
   "theorems": [
    "C15_ordered_divides",
    "C15_ordered_range"
   ],
   "note": "Division: any arithmetic. Range: exact real arithmetic."
  },
  {
   "property": "C11",
   "status": "proved",
   "theorems": [
    "C11_hier_qualities",
    "C11_1d",
    "C11_2d",
    "C11_3d",
    "C11_4d",
    "C11_leaves"
   ],
   "note": "Exact real arithmetic; every well-built hierarchy of at least two nodes."
  },
  {
   "property": "C12",
   "status": "proved",
   "theorems": [
    "C12_hier_superadditive",
    "C12_root_largest",
    "C12_hier_zero_loss"
   ],
   "note": ""
  },
  {
   "property": "C16",
   "status": "proved",
   "theorems": [
    "C16_hier_divides",
    "C16_hier_root_last",
    "C16_hier_after_root",
    "C16_hier_range",
    "C16_hier_refuted"
   ],
   "note": "What normalize() does, in any arithmetic, and a refutation of the expected behaviour for a hierarchy whose root is not the last node."
  },
  {
   "property": "C13",
   "status": "proved",
   "theorems": [
    "C13_spatio_qualities",
    "C13_2d",
    "C13_3d",
    "C13_4d",
    "C13_single"
   ],
   "note": "Exact real arithmetic; every well-built hierarchy of at least two nodes, 1 to 65535 slices."
  },
  {
   "property": "C14",
   "status": "proved",
   "theorems": [
    "C14_spatio_superadditive",
    "C14_whole_largest",
    "C14_zero_loss"
   ],
   "note": ""
  },
  {
   "property": "C17",
   "status": "proved",
   "theorems": [
    "C17_spatio_divides",
    "C17_spatio_root_last",
    "C17_spatio_after_root",
    "C17_spatio_range",
    "C17_spatio_refuted"
   ],
   "note": "What normalize() does, in any arithmetic, and a refutation of the expected behaviour for a hierarchy whose root is not the last node."
  },
  {
   "property": "C18",
   "status": "proved",
   "theorems": [
    "C18_ordered",
    "C18_hier",
    "C18_spatio"
   ],
   "note": "Exact real arithmetic."
  },
  {
   "property": "C28",
   "status": "proved",
   "theorems": [
    "C28_ordered_p0",
    "C28_ordered_p1",
    "C28_ordered_normalized",
    "C28_hier_p0",
    "C28_hier_p1",
    "C28_spatio_p0",
    "C28_spatio_p1"
   ],
   "note": "Exact real arithmetic."
  },
  {
   "property": "C48",
   "status": "proved",
   "theorems": [
    "C48_ordered_history",
    "C48_ordered_table",
    "C48_hier_history",
    "C48_hier_table",
    "C48_spatio_history",
    "C48_spatio_table"
   ],
   "note": "Any arithmetic, any history of computeQualities/normalize calls."
  },
  {
   "property": "C49",
   "status": "proved",
   "theorems": [
    "C49_ordered",
    "C49_hier",
    "C49_spatio"
   ],
   "note": "Exact real arithmetic."
  },
  {
   "property": "C25",
   "status": "proved",
   "theorems": [
    "C25_spatio_refuted"
   ],
   "note": "Refutation from data: a better partition into rectangles exists."
  },
  {
   "property": "C30",
   "status": "proved",
   "theorems": [
    "C30_ordered",
    "C30_ordered_real",
    "C30_hier",
    "C30_hier_real",
    "C30_spatio",
    "C30_spatio_real",
    "C30_ordered_ieee",
    "C30_hier_ieee",
    "C30_spatio_ieee"
   ],
   "note": "Any arithmetic whose parameters can be bisected; instances in exact arithmetic."
  },
  {
   "property": "C31",
   "status": "proved",
   "theorems": [
    "C31_ordered",
    "C31_hier",
    "C31_spatio",
    "C31_ordered_ieee",
    "C31_hier_ieee",
    "C31_spatio_ieee"
   ],
   "note": ""
  },
  {
   "property": "C32",
   "status": "proved",
   "theorems": [
    "C32_ordered",
    "C32_hier",
    "C32_spatio"
   ],
   "note": "Exact real arithmetic."
  },
  {
   "property": "C33",
   "status": "proved",
   "theorems": [
    "C33_ordered",
    "C33_ordered_diverges",
    "C33_hier",
    "C33_hier_diverges",
    "C33_spatio",
    "C33_spatio_diverges"
   ],
   "note": "Exact real arithmetic."
  },
  {
   "property": "C35",
   "status": "proved",
   "theorems": [
    "C35_ordered",
    "C35_hier",
    "C35_spatio"
   ],
   "note": ""
  },
  {
   "property": "C36",
   "status": "proved",
   "theorems": [
    "C36_ordered",
    "C36_hier",
    "C36_spatio"
   ],
   "note": ""
  },
  {
   "property": "C37",
   "status": "proved",
   "theorems": [
    "C37_ordered",
    "C37_hier",
    "C37_spatio",
    "C37_ordered_ieee",
    "C37_hier_ieee",
    "C37_spatio_ieee"
   ],
   "note": ""
  },
  {
   "property": "C52",
   "status": "proved",
   "theorems": [
    "C52_ordered",
    "C52_hier",
    "C52_spatio"
   ],
   "note": ""
  },
  {
   "property": "C53",
   "status": "proved",
   "theorems": [
    "C53_ordered",
    "C53_hier",
    "C53_spatio"
   ],
   "note": ""
  },
  {
   "property": "C38",
   "status": "proved",
   "theorems": [
    "C38_ordered",
    "C38_hier",
    "C38_spatio",
    "C38_unsearched"
   ],
   "note": "Exact real arithmetic."
  },
  {
   "property": "C39",
   "status": "proved",
   "theorems": [
    "C39_ordered",
    "C39_hier",
    "C39_spatio",
    "C39_unsearched",
    "C39_area",
    "C39_ordered_data",
    "C39_hier_data",
    "C39_spatio_data",
    "C39_ieee_float"
   ],
   "note": "Exact real arithmetic; the end-to-end range for hierarchies whose root is the last node (otherwise normalize() leaves entries above 1, C16/C17)."
  },
  {
   "property": "C40",
   "status": "proved",
   "theorems": [
    "C40_equality",
    "C40_refuted",
    "C40_refl_sym",
    "C40_not_transitive",
    "C40_neq",
    "C40_ieee_literal",
    "C40_ieee_sym",
    "C40_ieee_refl",
    "C40_ieee_refuted"
   ],
   "note": "Exact real arithmetic, and IEEE long double (C40_ieee_*)."
  },
  {
   "property": "C41",
   "status": "proved",
   "theorems": [
    "C41_greater",
    "C41_strict_total",
    "C41_others",
    "C41_refuted",
    "C41_unordered",
    "C41_binary",
    "C41_constructors",
    "C41_neq"
   ],
   "note": "Exact real arithmetic (C41_unordered: any)."
  },
  {
   "property": "C42",
   "status": "proved",
   "theorems": [
    "C42_ordered",
    "C42_hier",
    "C42_spatio",
    "C42_spatio_asymmetric"
   ],
   "note": "Any arithmetic."
  },
  {
   "property": "C54",
   "status": "proved",
   "theorems": [
    "C54_ordered",
    "C54_hier",
    "C54_spatio",
    "C54_ordered_ieee",
    "C54_hier_ieee",
    "C54_spatio_ieee"
   ],
   "note": "Any arithmetic whose parameters can be bisected."
  },
  {
   "property": "C43",
   "status": "proved",
   "theorems": [
    "C43_ordered",
    "C43_real",
    "C43_total",
    "C43_end_to_end"
   ],
   "note": "C43_ordered: any arithmetic, dimensions 1 to 4; C43_real, C43_total, C43_end_to_end: exact real arithmetic."
  },
  {
   "property": "C44",
   "status": "proved",
   "theorems": [
    "C44_hier",
    "C44_hier_diverges",
    "C44_expected_total",
    "C44_refuted",
    "C44_refuted_deep"
   ],
   "note": "Any arithmetic; the user's expectation is refuted."
  },
  {
   "property": "C45",
   "status": "proved",
   "theorems": [
    "C45_spatio",
    "C45_spatio_diverges",
    "C45_real"
   ],
   "note": "Any arithmetic (C45_real: exact)."
  },
  {
   "property": "C46",
   "status": "proved",
   "theorems": [
    "C46_ordered",
    "C46_hier",
    "C46_spatio"
   ],
   "note": "Any arithmetic; index arithmetic on unbounded integers."
  },
  {
   "property": "C47",
   "status": "proved",
   "theorems": [
    "C47_ordered_write",
    "C47_ordered_history",
    "C47_ordered_new",
    "C47_ordered_of",
    "C47_hier_write",
    "C47_hier_history",
    "C47_hier_new",
    "C47_hier_of",
    "C47_spatio_write",
    "C47_spatio_history",
    "C47_spatio_new",
    "C47_spatio_of"
   ],
   "note": "Any arithmetic."
  },
  {
   "property": "C51",
   "status": "proved",
   "theorems": [
    "C51_metadata",
    "C51_hier_qualities",
    "C51_hier_best",
    "C51_spatio_qualities",
    "C51_spatio_best",
    "C51_no_slice"
   ],
   "note": "Any arithmetic, all data; a finding about the code (undefined behaviour)."
  },
  {
   "property": "C34",
   "status": "proved",
   "theorems": [
    "C34_midpoint",
    "C34_ordered",
    "C34_hier",
    "C34_spatio",
    "C34_ordered_depth",
    "C34_hier_depth",
    "C34_spatio_depth",
    "C34_ordered_diverges",
    "C34_hier_diverges",
    "C34_spatio_diverges"
   ],
   "note": "IEEE arithmetic (Flocq), any implementation of log."
  },
  {
   "property": "C50",
   "status": "proved",
   "theorems": [
    "C50_ordered_nan",
    "C50_hier_nan_root",
    "C50_hier_nan",
    "C50_spatio_nan",
    "C50_ordered_normalized",
    "C50_hier_normalized",
    "C50_spatio_normalized",
    "C50_ordered_zero",
    "C50_hier_zero",
    "C50_spatio_zero",
    "C50_ordered_busy"
   ],
   "note": "IEEE instance (Flocq); log is arbitrary for the NaN/normalised/busy theorems, assumed finite on ints with log(2) <> 0 for the all-zero end-to-end theorems."
  },
  {
   "property": "C55",
   "status": "proved",
   "theorems": [
    "C55_ordered",
    "C55_hier",
    "C55_spatio"
   ],
   "note": "Any arithmetic; rectangular data; two or more nodes in the hierarchy (single-node hierarchies are C51)."
  },
  {
   "property": "C56",
   "status": "proved",
   "theorems": [
    "C56_ordered",
    "C56_hier",
    "C56_spatio"
   ],
   "note": "Any arithmetic; pointer-level model with an explicit heap."
  },
  {
   "property": "C57",
   "status": "proved",
   "theorems": [
    "C57_ordered_session",
    "C57_hier_session",
    "C57_spatio_session",
    "C57_ordered_stale",
    "C57_hier_stale",
    "C57_spatio_stale"
   ],
   "note": "Any arithmetic for the sessions; the three stale theorems: exact real qualities, root last in hierarchies; P_HeapStaleEx.v: data meeting them"
  },
  {
   "property": "C58",
   "status": "proved",
   "theorems": [
    "C58_ordered_session",
    "C58_hier_session",
    "C58_spatio_session",
    "C58_ordered_only",
    "C58_hier_only",
    "C58_spatio_only"
   ],
   "note": "Any arithmetic; pointer-level sessions."
  },
  {
   "property": "C59",
   "status": "proved",
   "theorems": [
    "C59_array",
    "C59_ordered",
    "C59_hier",
    "C59_spatio"
   ],
   "note": "Any arithmetic with a bisectable parameter range; rd (long double to R double) is any function. Rcpp/Armadillo access is modelled as column-major indexing."
  },
  {
   "property": "C60",
   "status": "proved",
   "theorems": [
    "C60_ordered",
    "C60_hier",
    "C60_spatio",
    "C60_ordered_total",
    "C60_hier_total",
    "C60_spatio_total"
   ],
   "note": "Exact real arithmetic; the total statements assume the root is numbered last (C16/C17 show why) and nonzero whole gain and loss (see C50 for zero)."
  },
  {
   "property": "C61",
   "status": "proved",
   "theorems": [
    "C61_ordered_degenerate",
    "C61_hier_degenerate",
    "C61_spatio_degenerate",
    "C61_ordered_busy",
    "C61_hier_zero",
    "C61_spatio_zero",
    "C61_ordered_defined",
    "C61_hier_defined",
    "C61_spatio_defined",
    "C61_ieee_parameters"
   ],
   "note": "IEEE instance (Flocq). C61_ieee_parameters shows that the hypotheses of C59 hold in this arithmetic. C61_examples are whole runs by vm_compute."
  },
  {
   "property": "C62",
   "status": "proved",
   "theorems": [
    "C62_check",
    "C62_check_small",
    "C62_sizes",
    "C62_hier_short",
    "C62_spatio_short"
   ],
   "note": "Any arithmetic. C62_uneven_good and C62_uneven_bad show both sides of the equivalence."
  },
  {
   "property": "C63",
   "status": "proved",
   "theorems": [
    "C63_getpath",
    "C63_getpath_short",
    "C63_getpath_tree"
   ],
   "note": "C63_nonvacuous, C63_short_nonvacuous and C63_tree_nonvacuous are trees of the three kinds."
  },
  {
   "property": "C64",
   "status": "proved",
   "theorems": [
    "C64_omacro",
    "C64_omacro_total",
    "C64_omacro_unknown",
    "C64_stacked"
   ],
   "note": "Over the reals. C64_C65_nonvacuous shows the hypotheses are met."
  },
  {
   "property": "C65",
   "status": "proved",
   "theorems": [
    "C65_hmacro",
    "C65_hmacro_total",
    "C65_hmacro_unknown",
    "C65_treemap_state",
    "C65_treemap_counter"
   ],
   "note": "Over the reals. C65_hmacro_uneven shows that the restriction on the depths is needed: hmacro then silently misses data."
  },
  {
   "property": "C66",
   "status": "proved",
   "theorems": [
    "C66_slicerstate",
    "C66_conserved",
    "C66_all_slices",
    "C66_full",
    "C66_nothing"
   ],
   "note": "Over the reals. C66_nonvacuous is a trace that meets all hypotheses; C66_missing_slices shows the missing slices."
  },
  {
   "property": "C67",
   "status": "proved",
   "theorems": [
    "C67_counter",
    "C67_fractions",
    "C67_defined"
   ],
   "note": "Over the reals. C67_nonvacuous meets the hypotheses and shows a missing slice."
  },
  {
   "property": "C68",
   "status": "proved",
   "theorems": [
    "C68_states_flat",
    "C68_states",
    "C68_counters_flat",
    "C68_counters",
    "C68_needs"
   ],
   "note": "Over the reals; names are integers in the order R sorts them. C68_nonvacuous goes from a file to the array and hierarchy."
  },
  {
   "property": "C69",
   "status": "proved",
   "theorems": [
    "C69_path",
    "C69_hier",
    "C69_spatio",
    "C69_haggregate",
    "C69_daggregate",
    "C69_trace",
    "C69_trace_counters",
    "C69_size"
   ],
   "note": "Any arithmetic for the C++ part. C69_nonvacuous is a file with an idle process."
  },
  {
   "property": "C70",
   "status": "proved",
   "theorems": [
    "C70_ordered",
    "C70_hier"
   ],
   "note": "Over the reals. C70_nonvacuous goes from a file to the data of the plots."
  },
  {
   "property": "C71",
   "status": "proved",
   "theorems": [
    "C71_place",
    "C71_ordered",
    "C71_hier",
    "C71_spatio"
   ],
   "note": "Over the reals. C71_nonvacuous meets the hypotheses of all three curves."
  },
  {
   "property": "C72",
   "status": "proved",
   "theorems": [
    "C72_ordered",
    "C72_hier",
    "C72_spatio"
   ],
   "note": "Over the reals. C72_nonvacuous meets the hypotheses of all three."
  },
  {
   "property": "C73",
   "status": "proved",
   "theorems": [
    "C73_root_never",
    "C73_hier_undefined",
    "C73_spatio_never",
    "C73_spatio_undefined"
   ],
   "note": "Over the reals. C73_undefined and C73_never are concrete arrays with the hierarchy c(6,6,7,7,0,5,5)."
  },
  {
   "property": "C74",
   "status": "proved",
   "theorems": [
    "C74_flat",
    "C74_tree",
    "C74_counters_flat",
    "C74_counters_tree",
    "C74_value_exists"
   ],
   "note": "what parsepjdump and pjdump2micro return, stated on the lines of the file (SpecFile.v)"
  },
  {
   "property": "C75",
   "status": "proved",
   "theorems": [
    "C75_weights",
    "C75_ordered",
    "C75_hier",
    "C75_spatio",
    "C75_ordered_total",
    "C75_hier_total",
    "C75_spatio_total"
   ],
   "note": "IEEE arithmetic of the code (Flocq binary formats, any log). Concrete tables meeting the hypotheses: P_NearEx.v. n is at most 65535 slices and 2^32 cells."
  },
  {
   "property": "C76",
   "status": "proved",
   "theorems": [
    "C76_ordered",
    "C76_hier",
    "C76_spatio"
   ],
   "note": "IEEE arithmetic of the code. The same concrete tables as C75, at p = 1/4 and p = 3/4."
  },
  {
   "property": "C77",
   "status": "proved",
   "theorems": [
    "C77_ordered",
    "C77_hier",
    "C77_spatio",
    "C77_rounded_log",
    "C77_double_log"
   ],
   "note": "IEEE arithmetic of the code; the log is a hypothesis, met by the correctly rounded long double log (C77_rounded_log, d = 2^-64, any E) and by any accurate double log applied to the rounded argument (C77_double_log, d = 2^-50, E up to 1000). Sizes: up to 65535 slices and 2^31-1 cells and components. Concrete data in P_NumEx.v."
  },
  {
   "property": "C78",
   "status": "proved",
   "theorems": [
    "C78_ordered",
    "C78_hier",
    "C78_spatio"
   ],
   "note": "as C77; spatiotemporal competitors are the covers in which nodes never move up, as in C03/C75."
  },
  {
   "property": "C79",
   "status": "proved",
   "theorems": [
    "C79_ordered",
    "C79_hier",
    "C79_spatio"
   ],
   "note": "IEEE arithmetic of the code; tree kinds need the root numbered last (see C16/C17/C73 for the other case) and a whole whose exact gain and loss are at least twice the error bound of C77 (well_above); concrete data in P_NormEx.v."
  },
  {
   "property": "C80",
   "status": "proved",
   "theorems": [
    "C80_ordered",
    "C80_hier",
    "C80_spatio"
   ],
   "note": "as C79; spatiotemporal competitors are the covers in which nodes never move up."
  },
  {
   "property": "C81",
   "status": "proved",
   "theorems": [
    "C81_ordered",
    "C81_ordered_integers",
    "C81_hier",
    "C81_hier_integers",
    "C81_spatio",
    "C81_spatio_integers",
    "C81_total"
   ],
   "note": "double arithmetic rounding to nearest-even; hierarchical and spatiotemporal parts restricted to nodes all of whose children are leaves (the others are 0 or never returned, see C44/C45). Concrete data in P_DoubleEx.v."
  },
  {
   "property": "C82",
   "status": "proved",
   "theorems": [
    "C82_ordered",
    "C82_hier",
    "C82_spatio"
   ],
   "note": "end to end from the R array to the data frames, over the code's own arithmetic (IA lg) with conversion to double; combines C79/C80 with the search (C30, C61). Also: the exact totals are between 0 and 1. Concrete array and tree meeting all hypotheses in P_RNumEx.v (C82_nonvacuous)."
  },
  {
   "property": "C83",
   "status": "proved",
   "theorems": [
    "C83_ordered",
    "C83_hier",
    "C83_spatio",
    "C83_ordered_data",
    "C83_hier_data",
    "C83_spatio_data"
   ],
   "note": "error analysis of computeAUC (long double terms, float accumulator) and computePOpt, in terms of the rows shown; the _data versions derive the hypothesis on the rows from C82. Concrete case: C83_nonvacuous."
  },
  {
   "property": "C84",
   "status": "proved",
   "theorems": [
    "C84_ordered",
    "C84_hier",
    "C84_spatio"
   ],
   "note": "equality of whole quality tables (plain and normalised) over an arbitrary arithmetic, any parent vector, error cases included; axiom-free"
  },
  {
   "property": "C85",
   "status": "proved",
   "theorems": [
    "C85_ordered",
    "C85_hier",
    "C85_spatio",
    "C85_faithful",
    "C85_lost",
    "C85_nonvacuous",
    "C85_dimensions"
   ],
   "note": "machine-word model of the containers (Words.v) compared with the unbounded-integer model; C85_faithful discharges the simplification that products of sizes do not wrap; C85_lost and C85_nonvacuous give the failing sizes"
  },
  {
   "property": "C86",
   "status": "proved",
   "theorems": [
    "C86_ordered",
    "C86_hier",
    "C86_spatio"
   ],
   "note": "equality of whole tables in exact arithmetic (floating point sums depend on the order of components)"
  },
  {
   "property": "C87",
   "status": "proved",
   "theorems": [
    "C87_ordered",
    "C87_spatio_table",
    "C87_spatio_refuted"
   ],
   "note": "ordered: mirrored table and equal totals of the best partitions; spatiotemporal: mirrored table, and equality of the best value is refuted by a concrete data set"
  },
  {
   "property": "C88",
   "status": "proved",
   "theorems": [
    "C88_hier",
    "C88_spatio"
   ],
   "note": "hierarchical: the returned nodes are exactly the renamed ones (uses that the returned partition is the coarsest optimum); spatiotemporal: equal totals"
  },
  {
   "property": "C89",
   "status": "proved",
   "theorems": [
    "C89_slice_tables",
    "C89_slice_partition",
    "C89_slice_p1",
    "C89_slice",
    "C89_leaf_partition",
    "C89_leaf"
   ],
   "note": "one slice: tables in any arithmetic, partitions in exact arithmetic; p=1 differs (Example C89_p1_strict); one leaf: same intervals and quality at every p"
  },
  {
   "property": "C90",
   "status": "proved",
   "theorems": [
    "C90_hier",
    "C90_hier_data",
    "C90_count",
    "C90_r_hier",
    "C90_ordered_refuted",
    "C90_spatio_refuted"
   ],
   "note": "hierarchical: nested partitions and bound on their number, down to the rows of haggregate (concrete case C90_r_nonvacuous); nesting refuted for the other two aggregations by concrete data"
  },
  {
   "property": "C91",
   "status": "proved",
   "theorems": [
    "C91_stacked",
    "C91_temporal",
    "C91_spatial",
    "C91_r",
    "C91_strict"
   ],
   "note": "comparison with grids, per-node tilings, OPartitioner on the rows and HPartitioner on the whole-time column; C91_strict: data for which every grid is strictly worse; concrete case C91_nonvacuous"
  },
  {
   "property": "C92",
   "status": "proved",
   "theorems": [
    "C92_ordered_crop",
    "C92_hier_crop",
    "C92_spatio_crop",
    "C92_ordered_defined",
    "C92_hier_defined",
    "C92_spatio_defined",
    "C92_ordered_empty",
    "C92_hier_empty",
    "C92_spatio_empty"
   ],
   "note": "any arithmetic; the UB outcome of the model is an access outside a vector; concrete cases C92_nonvacuous"
  },
  {
   "property": "C93",
   "status": "proved",
   "theorems": [
    "C93_same_ordered",
    "C93_same_hier",
    "C93_same_spatio",
    "C93_exact_ordered",
    "C93_exact_hier",
    "C93_exact_spatio",
    "C93_ordered",
    "C93_hier",
    "C93_spatio",
    "C93_ordered_real",
    "C93_hier_real",
    "C93_spatio_real",
    "C93_ordered_ieee",
    "C93_hier_ieee",
    "C93_spatio_ieee",
    "C93_hier_nodes"
   ],
   "note": "Cost.v is Search.v with a counter; C93_same_*: dropping the counter gives Search.v back; C93_exact_*: calls = ends + bisection points; the others bound the calls by the results"
  },
  {
   "property": "C94",
   "status": "proved",
   "theorems": [
    "C94_ordered",
    "C94_hier",
    "C94_spatio",
    "C94_ordered_real",
    "C94_hier_real",
    "C94_spatio_real",
    "C94_ordered_ieee",
    "C94_hier_ieee",
    "C94_spatio_ieee"
   ],
   "note": "ends_only is the specification; _real adds the consequences for getP(P_MAX) and computeAUC()"
  },
  {
   "property": "C95",
   "status": "proved",
   "theorems": [
    "C95_ordered",
    "C95_ordered_run",
    "C95_idle",
    "C95_hier",
    "C95_idle_asymmetry"
   ],
   "note": "exact arithmetic; C95_idle_asymmetry exhibits the two treatments of idle phases; concrete cases in P_KeepEx.v"
  },
  {
   "property": "C96",
   "status": "proved",
   "theorems": [
    "C96_table",
    "C96_value",
    "C96_parts",
    "C96_normal"
   ],
   "note": "exact arithmetic; refine and finer in SpecResample.v are the specification; the parts theorems need some data in every slice (idle slices are shown one by one, C95_idle)"
  },
  {
   "property": "C97",
   "status": "proved",
   "theorems": [
    "C97_ordered",
    "C97_ordered_multiples",
    "C97_hier",
    "C97_hier_multiples",
    "C97_spatio",
    "C97_spatio_multiples"
   ],
   "note": "exact arithmetic; SpecTypes.v is the specification; concrete cases and a strict one in P_TypesEx.v"
  },
  {
   "property": "C98",
   "status": "proved",
   "theorems": [
    "C98_ordered_table",
    "C98_ordered_tail",
    "C98_ordered_interval",
    "C98_hier_local",
    "C98_hier_subtree",
    "C98_spatio"
   ],
   "note": "Ordered table and tail, hier_local: any arithmetic; the others exact real arithmetic. Between two cuts only the qualities are the same (ties may be resolved differently). Spatiotemporal: a displayed rectangle's subtree, from its start to the end of time. Examples C98_*_met in P_ZoomEx.v."
  },
  {
   "property": "C99",
   "status": "proved",
   "theorems": [
    "C99_exists",
    "C99_hier",
    "C99_spatio",
    "C99_data",
    "C99_data_spatio"
   ],
   "note": "Exact real arithmetic. Existence of a padding for every hierarchy by induction on the missing depths; optimality by lifting covers along the padding. Concrete uneven hierarchy and padding: C99_met (P_PadEx.v)."
  },
  {
   "property": "C100",
   "status": "proved",
   "theorems": [
    "C100_hier",
    "C100_spatio"
   ],
   "note": "SpecRefine.v: more_levels; P_RefineEx.v: a flat hierarchy of three leaves and the same one with two groups"
  },
  {
   "property": "C101",
   "status": "proved",
   "theorems": [
    "C101_table",
    "C101_parts",
    "C101_normal",
    "C101_spatio_table",
    "C101_spatio_parts",
    "C101_spatio_normal"
   ],
   "note": "SpecCopies.v, SpecCopiesS.v: leaf_copies, equal_shares, equal_shares_slices; P_CopiesEx.v, P_CopiesSEx.v, P_CopiesSNEx.v: two leaves, each replaced by two"
  },
  {
   "property": "C102",
   "status": "proved",
   "theorems": [
    "C102_table",
    "C102_kept",
    "C102_value",
    "C102_normal"
   ],
   "note": "SpecFinerS.v: finer_data, finer_rect; P_FinerSEx.v, P_FinerNEx.v: two leaves, two slices, each slice divided in two"
  },
  {
   "property": "C103",
   "status": "proved",
   "theorems": [
    "C103_ordered",
    "C103_hier",
    "C103_spatio",
    "C103_onto",
    "C103_increasing"
   ],
   "note": "P_SliderEx.v: a concrete case of each at p = 1/2"
  },
  {
   "property": "C104",
   "status": "proved",
   "theorems": [
    "C104_ordered",
    "C104_hier",
    "C104_spatio"
   ],
   "note": "P_Repeat.v: times_over; P_RepeatEx.v: a concrete case of each, every component twice"
  }
 ]
}