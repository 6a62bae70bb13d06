# Formal model of schnorr/lpaggreg in Coq

All statements about the code are theorems named `Cnn_...` in `rocq/theories/P_*.v`; `MANIFEST.json` maps each property
of `properties.jsonl` to them. Build: `cd rocq && coq_makefile -f _CoqProject -o Makefile && make -j4` (about 3 minutes).

## 1. Modelling approach

* C++ vectors are `list`s; C++ `int` indices and node numbers are `Z`. Every vector access is a checked access in a
  result monad `res A := Ok a | UB | OutOfFuel` (Base.v): an out-of-range index, a null dereference, a division by zero
  of unsigned numbers or the use of an uninitialised variable is the distinct outcome `UB`; recursions and loops without
  an evident bound are fuelled, and running out of fuel is the distinct outcome `OutOfFuel`. No theorem treats `UB` or
  `OutOfFuel` as success: the positive theorems state `= Ok ...`, the negative ones `= UB` or `= OutOfFuel` for every fuel.
* 32-bit wrap-around is written into the one place where the code computes with it in a data-dependent way (the index
  and the element count of `UpperTriangularMatrix`, Utm.v); all other integers are unbounded `Z`.
* Arithmetic is a record `arith` of operations on numbers (`num`: `long double`/`double`) and parameters (`par`: `float`)
  (Arith.v). The model is written once over an arbitrary `arith`. Three kinds of theorem:
  - for **every** `arith` (hence IEEE arithmetic with rounding, infinities and NaN): all structural theorems;
  - for the exact real instance `RA` (or `RP P`: real numbers with an abstract type of parameters): the quantitative
    theorems - optimality, monotonicity, superadditivity, ranges;
  - for the IEEE instance `IA` built from Flocq (binary32 parameters, x87 80-bit numbers, any logarithm function): NaN
    and rounding-specific theorems (C34, C50).
* `shared_ptr<Quality>` tables have value semantics, except where the code depends on aliasing: `normalize()` re-reads
  its divisor, a pointer into the table, in every iteration (C16, C17); the iterator that `erase` invalidates (C52,
  `strict` flag); and the tradeoffs of `computeBestPartition`, whose implicit copy assignment shares the quality pointer
  (TradeoffHeap.v, C56-C58).

## 2. Files

* Models: Base, Arith, Quality, Utm, Hierarchy, Values, Qualities, Partitions, Partitioners, Search, Aggregation, Ieee,
  RApi, TradeoffHeap, Session. Every definition cites the lines of /repo it models.
* Specifications, written without reference to the model's functions (sets of leaves, tilings, sums, partitions of
  trees, ...): SpecTree, SpecParts, SpecInfo, SpecData, SpecSearch, SpecValues, SpecAgg, SpecIeee, SpecHeap, SpecR.
* Properties: P_*.v (theorem statements with short proofs, non-vacuity examples and `Print Assumptions`).
* Everything else: lemmas.

## 3. Properties: what is modelled and how it is proved

| id | model | proof method |
|----|-------|--------------|
| C01 C02 | `UpperTriangularMatrix` with explicit mod 2^32 | arithmetic, injectivity of the diagonal layout; witness at 65536 |
| C03-C06 | `HValuesMetaData::setPath` as fuelled loop with checked accesses | BFS loop invariant; counterexample by computation; pigeonhole for termination |
| C07 C11 C13 | `computeQualities` loops over exact reals | loop invariants (sums over intervals / leaves) |
| C08-C10 C12 C14 C49 | same | log-sum inequality from ln x <= x-1, with its equality case |
| C15-C18 C48 | `normalize` with aliasing of the divisor | loop invariant; computed counterexample |
| C19-C22 | `computeBestPartition`, `computeParts`/`computeSubPart` over any `arith` | loop invariants, induction on the tree / the remaining slices |
| C23-C26 | same over exact reals | dynamic-programming induction (lexicographic order on value, gain, -loss); witness for C25 |
| C27-C29 | same | exchange argument; canonical tie-breaking |
| C30-C37 C52-C54 | `computeBestPartitions` (bisection, erase loop, maps), generic in the partitioner | induction on fuel, sortedness invariant, bisection tree as inductive specification |
| C34 | Flocq binary32 parameters | rounding lemmas; witness by computation |
| C38 C39 | `getP`, `computeAUC`, `computePOpt` | fold invariants |
| C40-C42 | operators | case analysis, nsatz-free real arithmetic |
| C43-C45 | aggregates | fold invariants; non-termination by induction on fuel |
| C46 C47 | values classes | division/modulo arithmetic; list update lemmas |
| C50 | NaN classes over any `arith`, instantiated with IEEE | invariant "every cell is NaN" through the dynamic programs |
| C51 | one-node hierarchy | computation for arbitrary data |
| C55 | the composed pipeline over any `arith` | composition of the invariants |
| C56 | `computeBestPartition` on an explicit heap of Quality objects (TradeoffHeap.v) | simulation between the pointer-level and the value-level program, with a separation invariant on addresses |
| C57 C58 | client sessions over one qualities object (Session.v) | induction on the sequence of calls, using C56 as a frame rule |
| C59 C60 | the C++ code inside R/lpaggreg.R (RApi.v) on top of the whole pipeline; spec SpecR.v | composition of C30/C20-C24/C27/C33/C38/C39 with the array conversion; fold invariants for the frames |
| C61 | the same functions over IEEE arithmetic | NaN/infinity closure of the score; C34 for termination; first-listed-parameter invariant of the search |
| C62 | setPath on arbitrary valid trees | mass invariant of the loop: a node's size is at most its leaf count, with equality only if everything below was visited before it |
| C63 | getpath (R), as a loop over 1-based vectors | simulation of setPath's loop: same queue, same membership tests |
| C64 | omacro, oplot_stacked_state (data frames as lists of rows) | tilings (C59) determine the part of each slice; groups of aggregate as permutations of ranges |
| C65 | hmacro, the two treemaps | invariant of the copy loop: rows of a node visited are the leaves below it; node covers (C59) |
| C66 | slicerstate: join with the slices, group sums, filling with zeros | overlap of intervals is additive over consecutive slices; disjoint intervals fill at most a slice |
| C67 | slicerprvcounter: lead, rates, weighted means, normalisation | lead as pairs of consecutive rows of a group; same join lemmas |
| C68 | parsepjdump's two tables and pjdump2micro (states and counters, with and without hierarchy) | frames of the slicers (C66, C67) are complete products; sorted unique name lists determine positions; parent chains become paths of indices |
| C69 | the same as C11/C13/C62, and pjdump2micro | the path only ever contains ancestors of leaves; reading its missing last places fails |
| C70 | pjdump2micro, oaggregate/haggregate, omacro/hmacro chained | composition of C68, C64/C65 totals and additivity of overlaps (C66) |
| C71 | pjdump2micro, oaggregate/haggregate/daggregate chained | order of names gives the root's place; strict positivity of gain and loss from two positive/different times; C60 |
| C72 | oaggregate, haggregate, daggregate end to end | tables of C11-C17 rewritten as gain/loss of array entries (SpecBest.v), C59 rows, optimality C23/C24/C26 |
| C73 | as C72, computePOpt | C72 applied to the cover by nodes after the root; every score exceeds RAND_MAX, frames_ub |
| C74 | `r_parse`, `r_pjdump2micro` | the vocabulary of SpecFile.v (lines only) translated to that of C68 |
| C75 | `o_best`, `h_best`, `d_best` over `IA lg` (Flocq binary32/x87 extended, any log) | error analysis by induction along the recursions: each tabulated value is within (2k-1) error units of the exact sum of its k parts and no competitor's exact sum exceeds it by more than (2k'-1) units (`ONear`, `HNear`, `DNear`); then both are folded into n^2 B/2^59 |
| C76 | as C75 | exchange argument on two C75 bounds; the weights p and fl(1-p) differ enough when p2-p1 >= 2^-23 |
| C77 | `oq_compute`, `hq_compute`, `dq_compute` over `IA lg` with `log_accurate E d lg`; `SpecNum.v` | forward error analysis: the table entries are closed forms of rounded sums along the recursions (`OQual`, `HQualA`, `DQualA`, generic in the arithmetic), each sum of k terms is within k/2^63 of exact, x ln x is almost linear, cancellation is absorbed in the total (`NumFacts`, `ONum`, `TreeNum`, `HNum`, `DNum`) |
| C78 | as C77 composed with `o_best`, `h_best`, `d_best` | C77 + C75; the totals of the parts of any cover add up to the total of the data (`TreeOpt`) |
| C79 | `oq_normalize`, `hq_normalize`, `dq_normalize` after `oq_compute`, ... over `IA lg`; `SpecNorm.v` | C77 + error of one rounded quotient whose divisor is at least half the exact one (`NormNum.quot_close`); parts are at most the whole by superadditivity of gain and loss (C13/C14 lemmas) |
| C80 | as C79 composed with `o_best`, `h_best`, `d_best` | C79 entry errors summed over a cover (totals and measures of the parts add up to at most the whole) + C75 with bound 4 on the entries |
| C81 | the aggregation classes over `DA` (SpecDouble.v): IEEE double, nearest-even | C43-C45 give the sequence of additions; forward error of sequential summation by induction (no underflow term: sums of doubles are exact below the subnormal threshold), integers up to 2^53 exactly |
| C82 | `r_oaggregate`, `r_haggregate`, `r_daggregate` over `IA lg` with `as_double` (SpecRNum.v); exact values by `interval`, `subtree`, `rectangle` of `exact_array` | C79/C80 for the normalised table and the best partitions, C30 for the listed results, C61 for termination; the array conversion commutes with taking exact values (RNumFacts.v) |
| C83 | `rr_popt`, `rr_auc`, `rr_quals` of the three R functions over `IA lg`; `nearest_shown`, `points`, `variation`, `summary_ok` (SpecAuc.v) | rounding-error analysis of one trapezoid, of the float accumulation (invariant over the loop) and of the score (AucNum.v); the rows shown are within rd_err of the values used, hence the curves are close |
| C84 | value containers of every dimension (Values.v), quality computation and normalisation over an arbitrary `arith`; `o_table` ... `d_ntable` (SpecShape.v) | the tables depend on the container only through sizes and components (loop congruence), and the flattened index arithmetic agrees with `concat` (DataFacts.v); P_Shape.v |
| C85 | containers, flattened index and component loop with explicit mod 2^32 and `int` counters (Words.v) | simulation of the machine-word tables by the unbounded tables restricted to the first n mod 2^32 components; witnesses at 65536 x 65536 and 2 x 65536 x 65537; P_Words.v |
| C86 | tables of `ovalues`, `hvalues`, `dvalues` over `RP P`; `same_components` (SpecSym.v) | characterisation of tables (C07, C11, C13) and invariance of sums under permutation; P_Sym.v |
| C87 | same, with rows reversed; `mirror` | permutation of slices, mirrored tilings, antisymmetry of `no_better`; refutation from the data of C25; P_Mirror.v, P_MirrorNot.v |
| C88 | same, two hierarchies; `renaming` (SpecSym.v) | transport of `below`, leaves and covers along the renaming and its inverse; coarsest optimum (C24) for equality of partitions; P_Rename.v |
| C89 | `one_slice`, `sliced`, `superadditive` (SpecOverlap.v); the three aggregations on the same data | step-by-step simulation of the spatiotemporal table computation by the hierarchical one (any arithmetic); superadditivity rules out the ties on which the two comparisons differ; one leaf: both dynamic programs satisfy the same recursion; P_Overlap.v, P_Overlap2.v |
| C90 | `superadditive` tables (true of non-negative data); partitions at two parameters | a node kept at p1 is kept at p2 (exchange argument on the optimum at p2), induction over the tree; strictly decreasing number of split nodes along the list; counterexample data with bounds on log2 3; P_Nested.v, P_NestedR.v |
| C91 | `stacked` (SpecProduct.v): nodes, each with its own intervals | such partitions never move up the tree, so C26 (C72 for R) applies; strictness by evaluating the four grids of a 2x2 data set; P_Product.v, P_ProductR.v |
| C92 | `cropped2..4`, `void2..4` (SpecRagged.v) | the loops read only cells below the first vectors' sizes, every one of them (a defined result means every read succeeded), and no loop needs fuel; P_Ragged.v |
| C93 | Cost.v (the search of Search.v with a counter of computeBestPartition calls), CostFacts.v, P_Cost.v | induction on the recursion depth: a bisected interval contains at least one change of partition; erasure of the counter by induction |
| C94 | the search of Search.v with the bounds in the wrong order (P_Reversed.v, `ends_only`) | direct evaluation: no bisection, one round of the removal loop; AUC with C27; floats with the correctly rounded subtraction |
| C95 | ordered and hierarchical tables of non-negative data (KeepFacts.v, KeepSlices.v, P_Keep.v) | convexity: moving a cut one equal slice left or right is at least as good in one direction, strictly if there are data; ties by the first-optimum rule of the dynamic program |
| C96 | tables of data and of the same data m times finer (SpecResample.v, ResampleFacts.v, ResampleBest.v) | algebra of the measures on refined slices; C95 aligns the fine cuts; both tie-breaks choose the same tiling by induction |
| C97 | tables of all components and of their group sums (SpecTypes.v, TypesFacts.v, TypesCells.v) | log-sum inequality cell by cell; optimality of the second run against the partition of the first |
| C98 | SpecZoom (sub-interval, subtree, window of the data); ZoomFacts/ZoomTree/ZoomGrid | the partitioners' tables of cuts on the part are the shifted/renamed tables on the whole, by downward induction on slices and induction on the tree (P_Zoom, P_ZoomHier, P_ZoomSpatio, P_ZoomEx) |
| C99 | `padding` (SpecPad.v): a map from the nodes of the padded hierarchy to those of the hierarchy that keeps leaves and ancestry | existence by inserting one node above a shallow leaf at a time and exchanging the root with the last node (PadFacts.v); covers are pushed down and lifted along the map (P_Pad.v) |
| C100 | two tables over hierarchies related by `more_levels` (SpecRefine) | an antichain cover of the smaller hierarchy maps to one of the larger; optimality (C24, C26) of the larger run; common nodes have the same leaves, hence the same qualities |
| C101 | two tables over hierarchies related by `leaf_copies`, data by `equal_shares` (SpecCopies) | the cells of an old node are a permutation of its refined cells, so gain and loss follow from C96's lemmas (also per slice, for the spatiotemporal tables); induction over the tree: values differ by an additive term, so every decision is the same |
| C102 | two tables over one hierarchy, data by `finer_data` (SpecFinerS) | at least: the old rectangles on the finer axis form a cover the finer run considers; at most: any fine partition is rounded to the coarse axis in k ways (boundary b becomes (b+o)/k), each a valid cover; the mean value of the k is at least that of the fine one, since the cells of the k rounded parts are together the fine cells scaled by k, the loss is superadditive and the entropy of k numbers at most log2(k) |
| C103 | the tables before and after normalize() of one run | the map that multiplies gains by 1/G, losses by 1/L and values by (pL+(1-p)G)/(GL) is additive, keeps the order of Tradeoff and sends a tradeoff at p'' to one at p; two runs related by such a map make the same choices (Sim.v) |
| C104 | two tables, data related by `times_over` (P_Repeat.v) | sums over a permuted concatenation; tradeoffs multiplied by k: the simulation of Sim.v with C49's scaling map; equal normalised entries cell by cell |

None of the listed properties is left out as inexpressible.

## 4. Trusted base

* Coq 8.16.1's kernel (with its VM where `vm_compute` is used), `coqc`, and Flocq 4.1.0's definitions of IEEE operations
  where theorems mention `IA`, binary32 or the 80-bit format.
* The specifications Spec*.v and the faithfulness of the model files to the C++ text (by reading; the code was not run).
* Axioms: only those of Coq's standard library for the reals (`ClassicalDedekindReals.sig_forall_dec`,
  `ClassicalDedekindReals.sig_not_dec`, `FunctionalExtensionality.functional_extensionality_dep`) and
  `Classical_Prop.classic` (used by the standard library's `Rpower`/`ln` theory, and by Flocq). No axiom, parameter,
  functor or module type is declared in this development. The complete listing, per theorem, is in section 7.

## 5. Modelled / not modelled

Modelled, function by function (file: definitions in the model):

| source | model |
|---|---|
| uppertriangularmatrix.cpp (all) | Utm.v `u_new`, `u_get`, `u_set`, `u_at` |
| complexity.cpp, quality.cpp, tradeoff.cpp (all but `operator<<`) | Quality.v |
| hvalues.cpp (setPath, constructor, proxies) | Hierarchy.v `meta_build`, Values.v `hv_value` |
| ovaluesn.cpp, hvaluesn.cpp, dvaluesn.cpp, dvalues.cpp, ovalues.cpp | Values.v |
| oqualities.cpp, hqualities.cpp, dqualities.cpp, qualities.cpp | Qualities.v |
| opartition.cpp, hpartition.cpp, dpartition.cpp, partition.cpp | Partitions.v |
| `computeBestPartition` of opartitioner.cpp, hpartitioner.cpp, dpartitioner.cpp | Partitioners.v; at pointer level TradeoffHeap.v |
| `computeBestPartitions`, `addBestQualities` of the three partitioners, partitioner.cpp | Search.v |
| oaggregationn.cpp, haggregationn.cpp, daggregationn.cpp | Aggregation.v |
| C++ code embedded in R/lpaggreg.R (`oaggregate`, `haggregate`, `daggregate`, conversions) | RApi.v |
| R/lpaggreg_pjdump.R: getpath, omacro, hmacro, the data of the three plots | RHelpers.v |
| R/lpaggreg_pjdump.R: slicerstate, slicerprvcounter, parsepjdump (after read.table), pjdump2micro | Slicer.v |

Simplifications, all stated in the comments of the definitions:

* One type `num` stands for both `double` (data, aggregates) and `long double` (qualities). In `IA` it is the 80-bit
  format, into which doubles embed exactly; the aggregation classes, which add up in double, are therefore instantiated
  with their own arithmetic `DA` (SpecDouble.v) in C81, and with the exact instance elsewhere. The AUC accumulator, a
  `float` in C++, is rounded by `n_float` after each step.
* `FLT_EVAL_METHOD = 0` and x87 80-bit `long double` (the SysV x86-64 ABI) are assumed by `IA`; the functions `log` is
  any function (theorems that need something of it say `log_ok`).
* Products of sizes (`vsize = i*j*k`, `hsize*osize`) do not wrap in Values.v and Qualities.v; C85 (Words.v) models the wrap-around of
  `vsize` and proves when this makes no difference. Comparisons of `int` loop counters with `unsigned` sizes are comparisons of integers.
* Memory is unbounded: no `bad_alloc`, no stack overflow - a non-terminating recursion is `OutOfFuel` for every fuel.
* `unsigned` parameters (`h`, `a`, `b`, `c`, `o`) of element access are `Z`; a negative number is out of range.

Not modelled: `operator<<`, `shared_ptr` reference counts and destruction, the `PARTITION_COMPARE_QUALITY` variants of
partition equality (not compiled), the global-namespace placement of the binary Tradeoff operators, CMake files, test
programs, R's read.table and the drawing itself (ggplot2, treemap, colours). The data frame operations of R, sqldf and
dplyr that the R functions use are modelled by list functions (RHelpers.v, Slicer.v).

## 6. Findings (each is a theorem)

* C02: a matrix of 65536 slices or more is allocated too small.
* C05: with leaves at different depths the reported root, sizes and children are wrong, silently.
* C16/C17: normalisation leaves nodes with an index above the root's unnormalised.
* C25: the spatiotemporal partition is not optimal; C26 says what it is optimal for.
* C34: `float` search with a threshold below 2^-24 may recurse forever.
* C35: `computeBestPartitions(th, p, p)` reports no partition, and `getP(P_OPT)` then dereferences null.
* C38/C39: `getP`/`computeAUC` before a search are undefined.
* C40: `Quality ==` ignores the losses in its tolerance test and is not transitive.
* C41: `Tradeoff <` compares values only, unlike `>`; with NaN both `a<b` and `b<a`.
* C44/C45: hierarchical aggregates are 0 for leaf parts and recurse forever when a child of the part is internal.
* C50: data with zero reference gain or loss become NaN; hierarchical and ordered partitioners then answer oppositely.
* C51: a single-node hierarchy indexes path[-1]; zero slices are undefined for the spatiotemporal partitioner.
* C52: erase-while-iterating is undefined behaviour by the C++ rules on every duplicate.
* C61: from R, data whose whole gain or loss is 0 (a single slice, all zeros, one busy slice per series) give an uninitialised POpt.
* C62: whether a tree with leaves at different depths is built correctly depends on the numbering of its leaves; getSize()[getRoot()] tells; nodes missing from the path make computeQualities read out of bounds.
* C63: when the C++ path leaves nodes out, getpath in R fails or returns a vector with 0 in it.
* C65: for trees with leaves at different depths hmacro can silently miss data (C65_hmacro_uneven: the row of the root lacks a leaf).
* C66: a trace of states that ends with an instant gets fewer slices than asked for (C66_missing_slices); TsStart and TsEnd are 0 in rows without the state.
* C67: slicerprvcounter turns negative means into 0, and its result lacks the slices covered only by the last measures (C67_nonvacuous).
* C68: pjdump2micro fails (index of a missing row) when some parent is not itself listed as a container, or a resource is not (C68_needs).
* C69: a container without active resources makes haggregate and daggregate read out of bounds on the result of pjdump2micro (C69_trace).
* C71: pjdump2micro lists the parents in decreasing order of name, so the root comes last - which normalize() silently relies on - only if its name is alphabetically first (C71_place).
* C73: with a root that is not the last node, haggregate and daggregate compare the whole (divided by itself) with nodes in bits: the whole is never chosen (C73_never), and on c(30000,30000,0,0) with the hierarchy c(6,6,7,7,0,5,5) POpt is read uninitialised (C73_undefined).
* C85: with n >= 2^31 components the code is undefined or silently uses only the first n mod 2^32 components (none at 65536 x 65536: every gain and loss is 0).
* C87: the spatiotemporal result depends on the direction of time: reversing the data can give a strictly better partition.
* C89: with one slice, haggregate and daggregate differ at p = 1: HPartitioner splits on `<` of the values alone, DPartitioner on `>` of (value, gain, -loss); on the leaves (5,0) the first returns the root (loss 5), the second the leaves (loss 0).
* C90: lists of ordered or spatiotemporal partitions for growing p are not nested, so they must not be read as a multi-resolution hierarchy (hierarchical ones may).
* C92: the sizes are taken from the first inner vectors only: longer rows are silently cut, shorter ones are read out of bounds; there is no check anywhere.
* C94: with min > max computeBestPartitions looks only at the two ends, lists them in decreasing order, getP(P_MAX) returns the smaller one, and computeAUC() returns at least 1 instead of at most 1.
* C95: idle (all zero) slices are shown one by one before any activity or between activities, but as one part at the end of the trace: the tie-break prefers the part that reaches the end, else the shortest first part.
* C96: after normalize() the same p shows a different partition at another time resolution, although the data are the same.
* C97: analysing a total instead of the separate types of events can only lower the reported loss, down to 0 for types that alternate (C97_ordered_strict).
* C98: zooming is only consistent before `normalize()`, from displayed cuts, and, for the spatiotemporal overview, from a displayed part's start to the end of time (the partitioner never re-aggregates after a split, so a window that ends earlier may show other parts).
* C99: the way out of C05 and C62: padding an uneven hierarchy with single-child nodes is always possible and gives the analysis of the original hierarchy.

## 7. Print Assumptions, per theorem

**Closed under the global context (no axiom)** — 169 statements:

C01_history, C01_last, C01_new, C01_nonvacuous, C01_write, C02_65536_refuted, C02_large, C03_C04_uniform, C03_nonvacuous, C03_path, C04_children_sizes, C05_no_error, C05_refuted, C06_cyclic, C06_stops, C15_ordered_divides, C16_hier_divides, C16_hier_root_last, C17_spatio_divides, C17_spatio_root_last, C19_ordered_tiles, C20_hier_cover, C21_spatio_cover, C22_hier, C22_ordered, C22_spatio, C30_hier, C30_ordered, C30_spatio, C31_hier, C31_ordered, C31_spatio, C35_hier, C35_ordered, C35_spatio, C36_hier, C36_ordered, C36_spatio, C37_hier, C37_ordered, C37_spatio, C38_unsearched, C39_unsearched, C40_neq, C41_unordered, C42_hier, C42_ordered, C42_spatio, C42_spatio_asymmetric, C43_ordered, C44_hier, C44_hier_diverges, C45_spatio, C45_spatio_diverges, C46_hier, C46_ordered, C46_spatio, C47_hier_history, C47_hier_new, C47_hier_of, C47_hier_write, C47_ordered_history, C47_ordered_new, C47_ordered_of, C47_ordered_write, C47_spatio_history, C47_spatio_new, C47_spatio_of, C47_spatio_write, C48_hier_history, C48_hier_table, C48_ordered_history, C48_ordered_table, C48_spatio_history, C48_spatio_table, C51_hier_best, C51_hier_qualities, C51_metadata, C51_no_slice, C51_spatio_best, C51_spatio_qualities, C52_hier, C52_ordered, C52_spatio, C53_hier, C53_ordered, C53_spatio, C54_hier, C54_ordered, C54_spatio, C55_hier, C55_ordered, C55_spatio, C56_hier, C56_nonvacuous, C56_ordered, C56_spatio, C57_hier_session, C57_ordered_session, C57_spatio_session, C58_hier_only, C58_hier_session, C58_nonvacuous, C58_ordered_only, C58_ordered_session, C58_spatio_only, C58_spatio_session, C59_array, C59_hier, C59_ordered, C59_spatio, C62_check, C62_check_small, C62_hier_short, C62_short_nonvacuous, C62_sizes, C62_spatio_short, C62_uneven_bad, C62_uneven_good, C63_getpath, C63_getpath_short, C63_getpath_tree, C63_nonvacuous, C63_short_nonvacuous, C63_tree_nonvacuous, C69_daggregate, C69_haggregate, C69_hier, C69_path, C69_size, C69_spatio, C84_hier, C84_nonvacuous, C84_ordered, C84_spatio, C85_dimensions, C85_faithful, C85_hier, C85_lost, C85_nonvacuous, C85_ordered, C85_spatio, C89_slice_tables, C92_hier_crop, C92_hier_defined, C92_hier_empty, C92_nonvacuous, C92_ordered_crop, C92_ordered_defined, C92_ordered_empty, C92_spatio_crop, C92_spatio_defined, C92_spatio_empty, C93_exact_hier, C93_exact_ordered, C93_exact_spatio, C93_hier, C93_ordered, C93_same_hier, C93_same_ordered, C93_same_spatio, C93_spatio, C94_hier, C94_ordered, C94_spatio, C98_hier_local, C98_ordered_table, C98_ordered_tail, C99_exists

**`ClassicalDedekindReals.sig_forall_dec`** — 2 statements:

C86_nonvacuous, C88_nonvacuous

**`ClassicalDedekindReals.sig_forall_dec`, `FunctionalExtensionality.functional_extensionality_dep`** — 7 statements:

C103_increasing, C103_onto, C39_area, C66_missing_slices, C66_nothing, C66_slicerstate, C74_nonvacuous

**`ClassicalDedekindReals.sig_forall_dec`, `Classical_Prop.classic`, `FunctionalExtensionality.functional_extensionality_dep`** — 8 statements:

C66_all_slices, C66_conserved, C66_full, C66_nonvacuous, C67_counter, C67_defined, C67_fractions, C67_nonvacuous

**`ClassicalDedekindReals.sig_forall_dec`, `ClassicalDedekindReals.sig_not_dec`, `Classical_Prop.classic`, `FunctionalExtensionality.functional_extensionality_dep`** — 375 statements:

C07_1d, C07_2d, C07_3d, C07_4d, C07_ordered_qualities, C07_single_slices, C08_ordered_nonneg, C09_merge, C09_whole_largest, C100_hier, C100_met, C100_spatio, C101_met, C101_normal, C101_parts, C101_spatio_met, C101_spatio_normal, C101_spatio_normal_met, C101_spatio_parts, C101_spatio_table, C101_table, C102_kept, C102_met, C102_normal, C102_normal_met, C102_table, C102_value, C103_hier, C103_hier_met, C103_ordered, C103_ordered_met, C103_spatio, C103_spatio_met, C104_hier, C104_hier_met, C104_ordered, C104_ordered_met, C104_spatio, C104_spatio_met, C10_zero_loss, C11_1d, C11_2d, C11_3d, C11_4d, C11_hier_qualities, C11_leaves, C12_hier_superadditive, C12_hier_zero_loss, C12_root_largest, C13_2d, C13_3d, C13_4d, C13_single, C13_spatio_qualities, C14_spatio_superadditive, C14_whole_largest, C14_zero_loss, C15_ordered_range, C16_hier_after_root, C16_hier_range, C16_hier_refuted, C17_spatio_after_root, C17_spatio_range, C17_spatio_refuted, C18_hier, C18_ordered, C18_spatio, C20_nonvacuous, C21_nonvacuous, C23_ordered_optimal, C23_ordered_optimal_real, C24_hier_optimal, C24_hier_optimal_real, C25_spatio_refuted, C26_spatio_optimal, C26_spatio_optimal_real, C27_hier, C27_ordered, C27_spatio, C28_hier_p0, C28_hier_p1, C28_ordered_normalized, C28_ordered_p0, C28_ordered_p1, C28_spatio_p0, C28_spatio_p1, C29_hier, C29_ordered, C29_spatio, C30_hier_ieee, C30_hier_real, C30_ieee_nonvacuous, C30_ordered_ieee, C30_ordered_real, C30_spatio_ieee, C30_spatio_real, C31_hier_ieee, C31_ordered_ieee, C31_spatio_ieee, C32_hier, C32_ordered, C32_spatio, C33_hier, C33_hier_diverges, C33_ordered, C33_ordered_diverges, C33_spatio, C33_spatio_diverges, C34_hier, C34_hier_depth, C34_hier_diverges, C34_midpoint, C34_nonvacuous, C34_ordered, C34_ordered_depth, C34_ordered_diverges, C34_spatio, C34_spatio_depth, C34_spatio_diverges, C37_hier_ieee, C37_ordered_ieee, C37_spatio_ieee, C38_hier, C38_ordered, C38_spatio, C39_hier, C39_hier_data, C39_ieee_float, C39_ordered, C39_ordered_data, C39_spatio, C39_spatio_data, C40_equality, C40_ieee_literal, C40_ieee_nonvacuous, C40_ieee_refl, C40_ieee_refuted, C40_ieee_sym, C40_not_transitive, C40_refl_sym, C40_refuted, C41_binary, C41_constructors, C41_greater, C41_neq, C41_others, C41_refuted, C41_strict_total, C43_end_to_end, C43_real, C43_total, C44_expected_total, C44_refuted, C44_refuted_deep, C45_real, C49_hier, C49_ordered, C49_spatio, C50_busy_nonvacuous, C50_hier_nan, C50_hier_nan_root, C50_hier_normalized, C50_hier_zero, C50_nonvacuous, C50_ordered_busy, C50_ordered_nan, C50_ordered_normalized, C50_ordered_zero, C50_spatio_nan, C50_spatio_normalized, C50_spatio_zero, C51_nonvacuous, C54_hier_ieee, C54_ordered_ieee, C54_spatio_ieee, C55_nonvacuous, C57_hier_stale, C57_ordered_stale, C57_spatio_stale, C57_stale_met, C60_hier, C60_hier_total, C60_nonvacuous, C60_ordered, C60_ordered_total, C60_spatio, C60_spatio_total, C61_examples, C61_hier_defined, C61_hier_degenerate, C61_hier_zero, C61_ieee_parameters, C61_nonvacuous, C61_ordered_busy, C61_ordered_defined, C61_ordered_degenerate, C61_spatio_defined, C61_spatio_degenerate, C61_spatio_zero, C64_C65_nonvacuous, C64_omacro, C64_omacro_total, C64_omacro_unknown, C64_stacked, C65_hmacro, C65_hmacro_total, C65_hmacro_uneven, C65_hmacro_unknown, C65_treemap_counter, C65_treemap_state, C68_counters, C68_counters_flat, C68_needs, C68_nonvacuous, C68_states, C68_states_flat, C69_nonvacuous, C69_trace, C69_trace_counters, C70_hier, C70_nonvacuous, C70_ordered, C71_hier, C71_nonvacuous, C71_ordered, C71_place, C71_spatio, C72_hier, C72_nonvacuous, C72_ordered, C72_spatio, C73_hier_undefined, C73_never, C73_root_never, C73_spatio_never, C73_spatio_undefined, C73_undefined, C74_counters_flat, C74_counters_nonvacuous, C74_counters_tree, C74_flat, C74_tree, C74_value_exists, C75_hier, C75_hier_nonvacuous, C75_hier_total, C75_ordered, C75_ordered_nonvacuous, C75_ordered_total, C75_spatio, C75_spatio_nonvacuous, C75_spatio_total, C75_weights, C76_hier, C76_ordered, C76_spatio, C77_double_log_nonvacuous, C77_hier, C77_hier_nonvacuous, C77_ordered, C77_ordered_example, C77_ordered_nonvacuous, C77_spatio, C77_spatio_nonvacuous, C78_hier, C78_ordered, C78_spatio, C79_hier, C79_hier_nonvacuous, C79_ordered, C79_ordered_nonvacuous, C79_spatio, C79_spatio_nonvacuous, C80_hier, C80_ordered, C80_spatio, C81_hier, C81_hier_case, C81_hier_integers, C81_ordered, C81_ordered_case, C81_ordered_integers, C81_spatio, C81_spatio_case, C81_spatio_integers, C81_total, C81_total_case, C82_hier, C82_nonvacuous, C82_ordered, C82_spatio, C83_hier, C83_hier_data, C83_nonvacuous, C83_ordered, C83_ordered_data, C83_spatio, C83_spatio_data, C86_hier, C86_ordered, C86_spatio, C87_ordered, C87_spatio_refuted, C87_spatio_table, C88_hier, C88_spatio, C89_leaf, C89_leaf_nonvacuous, C89_leaf_partition, C89_nonvacuous, C89_p1_strict, C89_slice, C89_slice_p1, C89_slice_partition, C90_count, C90_hier, C90_hier_data, C90_ordered_refuted, C90_r_hier, C90_r_nonvacuous, C90_spatio_refuted, C91_nonvacuous, C91_r, C91_spatial, C91_stacked, C91_strict, C91_temporal, C93_ex, C93_hier_ieee, C93_hier_nodes, C93_hier_real, C93_ordered_ieee, C93_ordered_real, C93_spatio_ieee, C93_spatio_real, C94_ex, C94_hier_ieee, C94_hier_real, C94_ordered_ieee, C94_ordered_real, C94_spatio_ieee, C94_spatio_real, C95_hier, C95_hier_met, C95_idle, C95_idle_asymmetry, C95_ordered, C95_ordered_met, C95_ordered_run, C96_met, C96_normal, C96_parts, C96_table, C96_value, C97_hier, C97_hier_met, C97_hier_multiples, C97_ordered, C97_ordered_met, C97_ordered_multiples, C97_ordered_strict, C97_spatio, C97_spatio_met, C97_spatio_multiples, C98_hier_met, C98_hier_subtree, C98_ordered_interval, C98_ordered_met, C98_spatio, C98_spatio_met, C99_data, C99_data_spatio, C99_hier, C99_met, C99_spatio
