{"id": "C01", "title": "Triangular matrix cells are independent and in bounds", "statement": "For every size up to 65535 and every pair 0<=i<=j<size, reading or writing cell (i,j) of an UpperTriangularMatrix touches memory inside its storage; a write to (i,j) is what a later read of (i,j) returns and leaves every other cell, the size and the element count unchanged; the storage has exactly size*(size+1)/2 elements and (0,size-1) is its last one.", "quantifier": "every size <= 65535, every pair of cells, every stored value", "why_tests_cant": "The index formula is 32-bit modular arithmetic; only sampled sizes can be tested and a collision would silently mix two intervals' qualities.", "anchors": ["src/lpaggreg/sources/uppertriangularmatrix.cpp: UpperTriangularMatrix<T>::operator(), operator[], constructors, getElements, getSize"]}
{"id": "C02", "title": "Triangular matrix of 65536 or more", "statement": "The 65535 bound of C01 is sharp: with 65536 time slices the matrix is allocated too small and accesses inside 0<=i<=j<size fall outside the storage (undefined behaviour).", "quantifier": "the first size above the bound", "why_tests_cant": "A matrix that large needs gigabytes, so tests never allocate it.", "anchors": ["src/lpaggreg/sources/uppertriangularmatrix.cpp: UpperTriangularMatrix<T>::UpperTriangularMatrix"]}
{"id": "C03", "title": "Hierarchy path is a bottom-up enumeration with the root last", "statement": "For every valid hierarchy in which all leaves are at the same depth, constructing the metadata succeeds without undefined behaviour, getPath() lists every node exactly once, starts with the leaves in order, lists every node after all of its children, and getRoot() is the unique node whose parent is -1 and is the last entry of the path.", "quantifier": "every leaf count, every parents vector describing a uniform-depth tree", "why_tests_cant": "Infinitely many trees; tests use one or two.", "anchors": ["src/lpaggreg/sources/hvalues.cpp: HValuesMetaData::setPath, HValuesMetaData::HValuesMetaData, getPath, getRoot"]}
{"id": "C04", "title": "Node sizes and children lists are exact", "statement": "For every hierarchy as in C03, getSize()[h] is the number of leaves below h (1 for a leaf) and getChildren()[h] contains exactly the nodes whose parent is h, each once.", "quantifier": "every uniform-depth tree, every node", "why_tests_cant": "Sizes are accumulated incrementally while the path is being built, so correctness depends on a global ordering invariant.", "anchors": ["src/lpaggreg/sources/hvalues.cpp: HValuesMetaData::setPath, getSize, getChildren"]}
{"id": "C05", "title": "Hierarchies with leaves at different depths", "statement": "A user expects C03/C04 for every tree, also when leaves are at different depths. This fails: there is a valid tree for which the metadata is built without any error but the reported root is not the node with parent -1, and sizes and children are incomplete.", "quantifier": "every tree, also with unequal leaf depths", "why_tests_cant": "Existing tests only use balanced hierarchies; the failure is silent.", "anchors": ["src/lpaggreg/sources/hvalues.cpp: HValuesMetaData::setPath"]}
{"id": "C06", "title": "Building the hierarchy always stops", "statement": "For every leaf count and every vector of parent indices (also cyclic, out-of-range or rootless ones) the metadata construction never loops forever: it stops after at most max(hsize,leaves)+1 steps, either normally or by leaving the bounds of one of its vectors.", "quantifier": "every leaf count and every vector<int>, valid or not", "why_tests_cant": "Non-termination on some malformed input cannot be excluded by finitely many runs.", "anchors": ["src/lpaggreg/sources/hvalues.cpp: HValuesMetaData::setPath"]}
{"id": "C07", "title": "Ordered qualities follow the information-theoretic definition", "statement": "After computeQualities() on an ordered data set, for all i<=j the gain stored at (i,j) is the sum over components of S*log2(S) minus the sum of v*log2(v) over slices i..j (0 when S<=0), and the loss is the sum over components of S*log2(j-i+1) minus that component's gain; single slices have gain and loss 0. No out-of-bounds access occurs.", "quantifier": "every number of components and slices (<= 65535), every real data set (exact arithmetic)", "why_tests_cant": "The triangular recurrence must be right for every interval of every data set.", "anchors": ["src/lpaggreg/sources/oqualities.cpp: OQualities::computeQualities", "src/lpaggreg/sources/complexity.cpp: entropy, entropyReduction, divergence"]}
{"id": "C08", "title": "Gain and loss of an interval are never negative", "statement": "For non-negative data, every interval's gain and loss after computeQualities() are >= 0 (exact arithmetic).", "quantifier": "every non-negative data set, every interval", "why_tests_cant": "It is the log-sum inequality; tests only sample values.", "anchors": ["src/lpaggreg/sources/oqualities.cpp: OQualities::computeQualities", "src/lpaggreg/sources/complexity.cpp"]}
{"id": "C09", "title": "Merging intervals never decreases gain or loss", "statement": "For non-negative data and every i<=c<j, gain(i,j) >= gain(i,c)+gain(c+1,j) and loss(i,j) >= loss(i,c)+loss(c+1,j); hence the single aggregate (0,n-1) has the largest gain and the largest loss among all partitions.", "quantifier": "every non-negative data set, every interval and cut", "why_tests_cant": "Superadditivity is a real-analysis fact over all data.", "anchors": ["src/lpaggreg/sources/oqualities.cpp: OQualities::computeQualities"]}
{"id": "C10", "title": "Zero loss means homogeneous", "statement": "For non-negative data, the loss of an interval is 0 exactly when, for every component, all slices of the interval carry the same value.", "quantifier": "every non-negative data set, every interval", "why_tests_cant": "An equivalence over a continuum of inputs.", "anchors": ["src/lpaggreg/sources/oqualities.cpp: OQualities::computeQualities", "src/lpaggreg/sources/complexity.cpp: divergence"]}
{"id": "C11", "title": "Hierarchical qualities follow the definition", "statement": "After computeQualities() on a hierarchical data set over a well-built hierarchy, the gain and loss of every internal node are those of C07 computed over the leaves below it (with the number of leaves as size), leaves have gain and loss 0; no undefined behaviour occurs.", "quantifier": "every well-built hierarchy with at least one internal node, every number of components, every real data set", "why_tests_cant": "Needs the order of accumulation to be right for every tree.", "anchors": ["src/lpaggreg/sources/hqualities.cpp: HQualities::computeQualities"]}
{"id": "C12", "title": "Hierarchical gain/loss: non-negative and superadditive", "statement": "For non-negative data every node's gain and loss are >= 0 and at least the sum over any set of nodes that partition its leaves; the root's are the largest of all partitions.", "quantifier": "every hierarchy, every non-negative data set, every partition", "why_tests_cant": "Quantifies over all trees, data and partitions.", "anchors": ["src/lpaggreg/sources/hqualities.cpp: HQualities::computeQualities"]}
{"id": "C13", "title": "Spatiotemporal qualities follow the definition", "statement": "After computeQualities() on spatiotemporal data, the gain and loss of (h,i,j) are those of C07 over the cells (leaf below h) x (slices i..j), with size (leaves below h)*(j-i+1); no undefined behaviour occurs.", "quantifier": "every well-built hierarchy, every number of components and slices, every real data set", "why_tests_cant": "Triple nested accumulation over tree and triangular matrices.", "anchors": ["src/lpaggreg/sources/dqualities.cpp: DQualities::computeQualities"]}
{"id": "C14", "title": "Spatiotemporal gain/loss: non-negative", "statement": "For non-negative data every (h,i,j) has gain >= 0 and loss >= 0, and they are at least the sums over any rectangles that tile it.", "quantifier": "every hierarchy and non-negative data set, every node and interval", "why_tests_cant": "All data and all trees.", "anchors": ["src/lpaggreg/sources/dqualities.cpp: DQualities::computeQualities"]}
{"id": "C15", "title": "Ordered normalisation", "statement": "OQualities::normalize() divides every stored gain (loss) by the gain (loss) that the whole interval (0,n-1) had before the call; afterwards, for computed non-negative data with non-zero whole gain and loss, every gain and loss lies in [0,1] and the whole interval has (1,1).", "quantifier": "every size <= 65535 and every quality matrix", "why_tests_cant": "The divisor is itself one of the cells being overwritten (aliasing): whether it is overwritten last depends on the storage layout for every size.", "anchors": ["src/lpaggreg/sources/oqualities.cpp: OQualities::normalize", "src/lpaggreg/sources/quality.cpp: Quality::operator/="]}
{"id": "C16", "title": "Hierarchical normalisation", "statement": "A user expects HQualities::normalize() to divide every node's gain and loss by the root's. It holds exactly for the nodes whose index is <= the root's index; nodes with a larger index are divided by 1, i.e. left unnormalised. So it holds for every hierarchy whose root has the last index, and fails for a valid hierarchy whose root index is not last.", "quantifier": "every hierarchy and every quality vector", "why_tests_cant": "Depends on the numbering of nodes; tests always number the root last.", "anchors": ["src/lpaggreg/sources/hqualities.cpp: HQualities::normalize"]}
{"id": "C17", "title": "Spatiotemporal normalisation", "statement": "As C16 for DQualities::normalize(): cells of nodes with index <= the root's index are divided by the original gain/loss of (root,0,n-1), cells of nodes with a larger index are divided by 1.", "quantifier": "every hierarchy, every size and every quality table", "why_tests_cant": "Aliasing with the divisor and node numbering.", "anchors": ["src/lpaggreg/sources/dqualities.cpp: DQualities::normalize"]}
{"id": "C18", "title": "Normalising twice equals normalising once", "statement": "If the whole interval's (resp. root's) gain and loss are non-zero, a second normalize() changes nothing (exact arithmetic).", "quantifier": "every quality table with non-zero reference", "why_tests_cant": "All tables.", "anchors": ["src/lpaggreg/sources/oqualities.cpp: OQualities::normalize", "src/lpaggreg/sources/hqualities.cpp: HQualities::normalize", "src/lpaggreg/sources/dqualities.cpp: DQualities::normalize"]}
{"id": "C19", "title": "An ordered partition tiles the time axis", "statement": "computeBestPartition(p) on any quality matrix (size<=65535) returns, without undefined behaviour and in finitely many steps, parts [start,end] that are non-empty, in increasing order, contiguous, start at 0 and end at size-1. This holds for any arithmetic, including rounding, infinities and NaN.", "quantifier": "every quality matrix, every parameter value, every arithmetic (IEEE with NaN included)", "why_tests_cant": "Every slice must be covered exactly once whatever the floating-point comparisons return.", "anchors": ["src/lpaggreg/sources/opartitioner.cpp: OPartitioner::computeBestPartition", "src/lpaggreg/sources/opartition.cpp: OPartition::computeParts"]}
{"id": "C20", "title": "A hierarchical partition covers every leaf exactly once", "statement": "computeBestPartition(p) on a well-built hierarchy returns parts such that every leaf is below (or equal to) exactly one part's node, and each part's reported size is its number of leaves; for any quality vector and any arithmetic, including NaN.", "quantifier": "every well-built hierarchy, quality vector, parameter and arithmetic", "why_tests_cant": "All trees and all comparison outcomes.", "anchors": ["src/lpaggreg/sources/hpartitioner.cpp: HPartitioner::computeBestPartition", "src/lpaggreg/sources/hpartition.cpp: HPartition::computeSubPart"]}
{"id": "C21", "title": "A spatiotemporal partition covers every (leaf, slice) exactly once", "statement": "computeBestPartition(p) on a well-built hierarchy and any table of qualities returns rectangles (node,[start,end]) such that every (leaf, slice) lies in exactly one of them, with the reported sizes; for any arithmetic, including NaN.", "quantifier": "every well-built hierarchy, number of slices in 1..65535, quality table, parameter and arithmetic", "why_tests_cant": "All trees and all comparison outcomes.", "anchors": ["src/lpaggreg/sources/dpartitioner.cpp: DPartitioner::computeBestPartition", "src/lpaggreg/sources/dpartition.cpp: DPartition::computeSubPart"]}
{"id": "C22", "title": "Partition quality is the sum of its parts' qualities", "statement": "For the partition returned by computeBestPartition, each part carries the gain/loss stored in the quality table for exactly that part, and getQuality() is the sum of the parts' gains and losses, added in order.", "quantifier": "every quality table, parameter, arithmetic; ordered, hierarchical and spatiotemporal", "why_tests_cant": "All tables.", "anchors": ["src/lpaggreg/sources/opartition.cpp: OPartition::computeQuality", "src/lpaggreg/sources/hpartition.cpp: HPartition::computeQuality", "src/lpaggreg/sources/dpartition.cpp: DPartition::computeQuality"]}
{"id": "C23", "title": "Ordered partition is optimal", "statement": "In exact arithmetic the partition returned by OPartitioner::computeBestPartition(p) maximises p*gain-(1-p)*loss over all partitions of the slices into consecutive intervals; among those it has the largest gain, and among those the smallest loss.", "quantifier": "every quality matrix, every p, all 2^(n-1) competing partitions", "why_tests_cant": "Exponentially many competitors for infinitely many inputs.", "anchors": ["src/lpaggreg/sources/opartitioner.cpp: OPartitioner::computeBestPartition", "src/lpaggreg/sources/tradeoff.cpp: operator>, computePIC"]}
{"id": "C24", "title": "Hierarchical partition is optimal", "statement": "In exact arithmetic the partition returned by HPartitioner::computeBestPartition(p) maximises p*gain-(1-p)*loss over all sets of nodes that cover every leaf exactly once; on ties at a node the aggregate is kept.", "quantifier": "every well-built hierarchy, quality vector, p, every competing set of nodes", "why_tests_cant": "Exponentially many competitors.", "anchors": ["src/lpaggreg/sources/hpartitioner.cpp: HPartitioner::computeBestPartition", "src/lpaggreg/sources/tradeoff.cpp: operator<"]}
{"id": "C25", "title": "Spatiotemporal partition is not optimal in general", "statement": "A user expects DPartitioner::computeBestPartition(p) to return a partition of leaves x slices into (node, interval) rectangles with the largest p*gain-(1-p)*loss. This fails: there is a data set, hierarchy and p for which another partition into rectangles has a strictly larger value.", "quantifier": "every hierarchy, data set, p and competing partition", "why_tests_cant": "The inner loop overwrites intermediate optima; no crash reveals it.", "anchors": ["src/lpaggreg/sources/dpartitioner.cpp: DPartitioner::computeBestPartition (line 72)"]}
{"id": "C26", "title": "Spatiotemporal partition is optimal among non-reaggregating partitions", "statement": "In exact arithmetic the returned spatiotemporal partition maximises p*gain-(1-p)*loss (then gain, then minus loss) among the partitions into (node, interval) rectangles in which the node covering a given leaf never moves back up the hierarchy as time advances, and it is itself such a partition.", "quantifier": "every well-built hierarchy, quality table, p, every competitor of that class", "why_tests_cant": "Exponentially many competitors.", "anchors": ["src/lpaggreg/sources/dpartitioner.cpp: DPartitioner::computeBestPartition", "src/lpaggreg/sources/dpartition.cpp: DPartition::computeSubPart"]}
{"id": "C27", "title": "Gain and loss grow with the parameter", "statement": "In exact arithmetic, for 0<=p<p'<=1 the partition returned for p' has gain and loss at least those of the partition returned for p (ordered, hierarchical and spatiotemporal).", "quantifier": "every quality table and every pair of parameters", "why_tests_cant": "All pairs of real parameters and all tables.", "anchors": ["src/lpaggreg/sources/opartitioner.cpp: computeBestPartition", "src/lpaggreg/sources/hpartitioner.cpp: computeBestPartition", "src/lpaggreg/sources/dpartitioner.cpp: computeBestPartition"]}
{"id": "C28", "title": "Extreme parameters", "statement": "On qualities computed from non-negative data: at p=0 the returned ordered or hierarchical partition has total loss 0, and the ordered one has the largest gain among zero-loss partitions; at p=1 its total gain equals the gain of the single full aggregate.", "quantifier": "every non-negative data set", "why_tests_cant": "All data sets.", "anchors": ["src/lpaggreg/sources/opartitioner.cpp: computeBestPartition", "src/lpaggreg/sources/hpartitioner.cpp: computeBestPartition"]}
{"id": "C29", "title": "Equal partitions at two parameters mean equal in between", "statement": "In exact arithmetic, if the partitions for p1<p2 in [0,1] are equal then every parameter between them yields the same partition. (This is what justifies stopping the bisection.)", "quantifier": "every quality table, all p1<p<p2", "why_tests_cant": "A continuum of intermediate parameters; tie-breaking must be consistent.", "anchors": ["src/lpaggreg/sources/opartitioner.cpp: addBestQualities", "src/lpaggreg/sources/hpartitioner.cpp: addBestQualities", "src/lpaggreg/sources/dpartitioner.cpp: addBestQualities"]}
{"id": "C30", "title": "Result lists of computeBestPartitions agree", "statement": "For min<max and threshold>0, after computeBestPartitions the list getPList() is strictly increasing and starts with min, getPartitions() and getQualityList() have exactly these parameters as keys, the partition stored under p is the one computeBestPartition(p) returns and the quality stored under p is that partition's quality.", "quantifier": "every quality table, every min<max and threshold>0; every earlier history of calls", "why_tests_cant": "Global invariant over a recursive search and an erase-while-iterating loop.", "anchors": ["src/lpaggreg/sources/opartitioner.cpp: computeBestPartitions", "src/lpaggreg/sources/hpartitioner.cpp: computeBestPartitions", "src/lpaggreg/sources/dpartitioner.cpp: computeBestPartitions", "src/lpaggreg/sources/partitioner.cpp: getPList, getQualityList"]}
{"id": "C31", "title": "No two consecutive results are equal", "statement": "After computeBestPartitions, partitions stored under consecutive parameters of getPList() are different (under the library's operator==).", "quantifier": "every quality table, min<max, threshold>0", "why_tests_cant": "The deduplication erases from the vector it iterates over.", "anchors": ["src/lpaggreg/sources/opartitioner.cpp: computeBestPartitions lines 28-34"]}
{"id": "C32", "title": "Resolution of computeBestPartitions", "statement": "In exact arithmetic with 0<=min<max<=1: for every parameter p in [min,max], if q is the largest listed parameter <= p and p is more than threshold below the next listed parameter (or q is the last), then computeBestPartition(p) equals the partition listed under q.", "quantifier": "every quality table, threshold>0, every real p in [min,max]", "why_tests_cant": "Claims about all unlisted parameters, a continuum.", "anchors": ["src/lpaggreg/sources/opartitioner.cpp: computeBestPartitions, addBestQualities"]}
{"id": "C33", "title": "Termination of the parameter search", "statement": "With threshold>0 the bisection terminates in exact arithmetic, with recursion depth at most log2((max-min)/threshold)+1; with threshold<=0 and different partitions at min and max it never terminates.", "quantifier": "every quality table, every min, max and threshold", "why_tests_cant": "Non-termination cannot be observed, termination for all inputs cannot be sampled.", "anchors": ["src/lpaggreg/sources/opartitioner.cpp: addBestQualities", "src/lpaggreg/sources/hpartitioner.cpp: addBestQualities", "src/lpaggreg/sources/dpartitioner.cpp: addBestQualities"]}
{"id": "C34", "title": "Termination of the search with real float parameters", "statement": "With IEEE single-precision parameters, min<max in [0,1] and any finite threshold >= 2^-24, every midpoint lies strictly between its bounds and the search terminates, whatever the qualities (NaN included), with recursion depth at most k+1 when max-min-2^-23 <= (threshold-2^-23)*2^k. For every finite threshold below 2^-24 there are qualities for which the search from 0 to 1 recurses forever because a midpoint rounds onto a bound.", "quantifier": "every pair of floats in [0,1], every threshold >= 2^-23", "why_tests_cant": "All float pairs; the infinite recursion appears only when a change of partition is bracketed by adjacent floats.", "anchors": ["src/lpaggreg/sources/opartitioner.cpp: addBestQualities line 71"]}
{"id": "C35", "title": "Degenerate parameter range", "statement": "A user expects computeBestPartitions(threshold,p,p) to report the best partition for p. This fails: getPList() is [p] but getPartitions(), getQualityList() and getPartitionsTuples() are empty, and getP(P_OPT) then dereferences a null pointer.", "quantifier": "every quality table, every p with min=max=p", "why_tests_cant": "Corner case of the erase-by-key logic.", "anchors": ["src/lpaggreg/sources/opartitioner.cpp: computeBestPartitions lines 28-34", "src/lpaggreg/sources/partitioner.cpp: computePOpt"]}
{"id": "C36", "title": "computeBestPartitions forgets its history", "statement": "The state after computeBestPartitions depends only on the qualities and the arguments of the last call, not on any earlier calls.", "quantifier": "every sequence of earlier calls", "why_tests_cant": "All histories.", "anchors": ["src/lpaggreg/sources/opartitioner.cpp: computeBestPartitions lines 15-18"]}
{"id": "C37", "title": "Tuples are exactly the parts", "statement": "getPartitionsTuples() lists, for each stored parameter in increasing order, exactly the parts of its partition in order with their coordinates, sizes, gain and loss.", "quantifier": "every quality table, min<max, threshold>0", "why_tests_cant": "All outputs.", "anchors": ["src/lpaggreg/sources/opartitioner.cpp: computeBestPartitions lines 35-41", "src/lpaggreg/sources/hpartitioner.cpp lines 36-42", "src/lpaggreg/sources/dpartitioner.cpp lines 35-41"]}
{"id": "C38", "title": "getP selects as documented", "statement": "After a successful search: getP(P_MIN)=0, getP(P_MAX) is the largest listed parameter, getP(P_OPT) is the listed parameter minimising (gain-1)^2+loss^2 - the last one on ties - provided one of these scores is at most RAND_MAX. Before any search P_MAX reads out of bounds and P_OPT returns an uninitialised value.", "quantifier": "every result list and qualities", "why_tests_cant": "All result lists, including scores above RAND_MAX.", "anchors": ["src/lpaggreg/sources/partitioner.cpp: getP, computePOpt"]}
{"id": "C39", "title": "Area under the curve stays in [0,1]", "statement": "For normalised qualities (gain and loss non-decreasing along the list and in [0,1]) computeAUC() is in [0,1], and it is 1 when a single partition is listed; on an empty list it is undefined behaviour (unsigned underflow). In IEEE arithmetic the result is always a float value.", "quantifier": "every result list of the search on normalised qualities", "why_tests_cant": "All lists.", "anchors": ["src/lpaggreg/sources/partitioner.cpp: computeAUC"]}
{"id": "C40", "title": "Quality equality", "statement": "A user expects Quality::operator== to be true only if both gain and loss agree up to the relative precision. This fails: it never compares the losses in its tolerance branch, so two qualities with the same positive gain and arbitrarily different losses compare equal. It is reflexive and symmetric but not transitive in exact arithmetic, and != is its negation. In IEEE long double arithmetic too it is symmetric, reflexive except for NaN gains, its tolerance is 1e-13 to double precision, and equal gains (from 2^-16000 to 2^16000) hide any losses.", "quantifier": "every pair of qualities", "why_tests_cant": "All pairs of reals.", "anchors": ["src/lpaggreg/sources/quality.cpp: operator==, operator!="]}
{"id": "C41", "title": "Tradeoff order", "statement": "In exact arithmetic Tradeoff operator> is a strict total order comparing value, then gain, then (reversed) loss; operator<= is its negation; but operator< only compares values, so a<b is not equivalent to b>a: there are tradeoffs with b>a and not a<b, and with any NaN value a<b is true for both orders.", "quantifier": "every pair/triple of tradeoffs", "why_tests_cant": "All pairs, ties and NaN.", "anchors": ["src/lpaggreg/sources/tradeoff.cpp: operator>, operator<, operator<=, operator>=, operator=="]}
{"id": "C42", "title": "Partition equality is equality of the set of parts", "statement": "operator== on ordered (hierarchical) partitions is true exactly when both have the same sequence of (start,end) (resp. (node,size)); on spatiotemporal partitions with pairwise different parts it is true exactly when both have the same set of (node, start, end, size) parts; != is the negation.", "quantifier": "every pair of partitions", "why_tests_cant": "All pairs; the spatiotemporal test is a one-sided inclusion.", "anchors": ["src/lpaggreg/sources/opartition.cpp: operator==", "src/lpaggreg/sources/hpartition.cpp: operator==", "src/lpaggreg/sources/dpartition.cpp: operator=="]}
{"id": "C43", "title": "Ordered aggregates sum and average the data", "statement": "For every part of an ordered partition, getSum() is the sum of the data over its slices for each component (1 to 4 dimensions), getMean() that sum divided by the number of slices, and the sums over all parts of a partition add up to the total of the data.", "quantifier": "every data set of dimension 1..4, every partition returned by the partitioner", "why_tests_cant": "All shapes and partitions.", "anchors": ["src/lpaggreg/sources/oaggregationn.cpp: OAggregateN1..N4::compute, OAggregationN1..N4"]}
{"id": "C44", "title": "Hierarchical aggregates", "statement": "A user expects HAggregate getSum() to be the sum over the leaves below the part's node. It holds when the part is a node all of whose children are leaves. It fails otherwise: for a part that is a leaf the reported sum is 0, and for a part with an internal child the computation recurses forever.", "quantifier": "every hierarchy, data set and part", "why_tests_cant": "All trees and parts; the recursion ignores its own argument.", "anchors": ["src/lpaggreg/sources/haggregationn.cpp: HAggregateN1..N4::subSum, compute"]}
{"id": "C45", "title": "Spatiotemporal aggregates", "statement": "As C44 for DAggregate: correct (sum over leaves below the node and slices of the part, mean = sum/(leaves*slices)) when all children of the part's node are leaves, 0 for a leaf part, infinite recursion when a child is internal.", "quantifier": "every hierarchy, data set and part", "why_tests_cant": "All trees and parts.", "anchors": ["src/lpaggreg/sources/daggregationn.cpp: DAggregateN2..N4::subSum, compute"]}
{"id": "C46", "title": "Flattened component index", "statement": "For 3- and 4-dimensional data, the component rows addressed by a single index 0..vsize-1 enumerate every (a,b) (resp. (a,b,c)) exactly once, in bounds, and the row returned is the one that element access addresses with those coordinates.", "quantifier": "every shape of rectangular data, every index", "why_tests_cant": "All shapes.", "anchors": ["src/lpaggreg/sources/ovaluesn.cpp: toI, toJ, toK, operator[]", "src/lpaggreg/sources/hvaluesn.cpp: toI, toJ, toK, getValue", "src/lpaggreg/sources/dvaluesn.cpp: toI, toJ, getValue"]}
{"id": "C47", "title": "Element read/write", "statement": "Writing an element of a values object and reading it back returns the written value, all other elements and all sizes are unchanged; the sizes reported for nested vectors are the nesting lengths and a freshly sized object is all zeros.", "quantifier": "every shape, coordinates in range, sequence of writes", "why_tests_cant": "All shapes and histories.", "anchors": ["src/lpaggreg/sources/ovaluesn.cpp", "src/lpaggreg/sources/hvaluesn.cpp", "src/lpaggreg/sources/dvaluesn.cpp"]}
{"id": "C48", "title": "Recomputing qualities discards previous state", "statement": "computeQualities() yields the same table whatever was computed or normalised before; on an object built from a ready-made table it does nothing; normalize() on a table-only ordered or spatiotemporal object, or before computeQualities(), is undefined behaviour.", "quantifier": "every history of computeQualities/normalize calls", "why_tests_cant": "All histories.", "anchors": ["src/lpaggreg/sources/oqualities.cpp", "src/lpaggreg/sources/hqualities.cpp", "src/lpaggreg/sources/dqualities.cpp"]}
{"id": "C49", "title": "Scaling the data does not change the aggregation", "statement": "Multiplying all (non-negative) data by the same positive constant multiplies all gains and losses by it, hence leaves the normalised qualities and, in exact arithmetic, the best partition for every p unchanged.", "quantifier": "every data set, every positive constant, every p", "why_tests_cant": "A continuum of scalings.", "anchors": ["src/lpaggreg/sources/oqualities.cpp: computeQualities, normalize", "src/lpaggreg/sources/complexity.cpp", "src/lpaggreg/sources/opartitioner.cpp: computeBestPartition"]}
{"id": "C50", "title": "Degenerate data after normalisation", "statement": "Data whose reference gain or loss is 0 (all-zero data; ordered data with a single busy slice per component) become NaN when normalised. The ordered and the spatiotemporal partitioners then return the single full aggregate for every p; the hierarchical partitioner, when all internal nodes are NaN, returns the set of all leaves for every p, and never the root when the root is NaN - for all-zero data the opposite of what it returns without normalisation (the root for every p in [0,1]).", "quantifier": "every hierarchy, every size, every IEEE table or data set of that kind, every p (including NaN and infinite p)", "why_tests_cant": "Needs NaN semantics of every comparison.", "anchors": ["src/lpaggreg/sources/hpartitioner.cpp: computeBestPartition", "src/lpaggreg/sources/tradeoff.cpp: operator<", "src/lpaggreg/sources/hqualities.cpp: normalize"]}
{"id": "C51", "title": "Single-node hierarchies", "statement": "A user may pass a hierarchy consisting of a single leaf that is the root. Metadata construction works, but computing hierarchical or spatiotemporal qualities and the hierarchical best partition index a vector with -1 (undefined behaviour), whatever the data; the spatiotemporal best partition works. With zero slices the spatiotemporal best partition is undefined on every hierarchy.", "quantifier": "every value, the one-node hierarchy", "why_tests_cant": "Undefined behaviour may go unnoticed in a run.", "anchors": ["src/lpaggreg/sources/hqualities.cpp: computeQualities", "src/lpaggreg/sources/hpartitioner.cpp: computeBestPartition", "src/lpaggreg/sources/dqualities.cpp: computeQualities"]}
{"id": "C52", "title": "Erase while iterating", "statement": "computeBestPartitions decrements an iterator that vector::erase has just invalidated, so by the C++ rules every call in which two neighbouring evaluated parameters give equal partitions has undefined behaviour.", "quantifier": "every call that removes at least one parameter", "why_tests_cant": "Works by accident with common standard libraries.", "anchors": ["src/lpaggreg/sources/opartitioner.cpp: lines 28-34", "src/lpaggreg/sources/hpartitioner.cpp: lines 29-35", "src/lpaggreg/sources/dpartitioner.cpp: lines 28-34"]}
{"id": "C53", "title": "The search terminates exactly when the bisection is finite", "statement": "computeBestPartitions(threshold,min,max) with min<max ends if and only if bisecting [min,max] - stopping an interval when the partitions at its ends are equal or its width is at most the threshold - needs finitely many evaluations, and then exactly those parameters, with min and max, have been evaluated; with equal partitions at min and max nothing in between is evaluated.", "quantifier": "every table, hierarchy, threshold and range, every arithmetic whose parameters can be bisected", "why_tests_cant": "Non-termination and every table.", "anchors": ["src/lpaggreg/sources/opartitioner.cpp: addBestQualities", "src/lpaggreg/sources/hpartitioner.cpp: addBestQualities", "src/lpaggreg/sources/dpartitioner.cpp: addBestQualities"]}
{"id": "C54", "title": "Exactly which parameters are listed", "statement": "After computeBestPartitions(threshold,min,max), the listed parameters are exactly min and those evaluated parameters (the bisection points and max) whose partition differs from the partition of the evaluated parameter just before them, in increasing order.", "quantifier": "every table, hierarchy, threshold and range for which the search ends", "why_tests_cant": "All tables; depends on the erase-while-iterating loop keeping its place.", "anchors": ["src/lpaggreg/sources/opartitioner.cpp: computeBestPartitions", "src/lpaggreg/sources/hpartitioner.cpp: computeBestPartitions", "src/lpaggreg/sources/dpartitioner.cpp: computeBestPartitions"]}
{"id": "C55", "title": "The pipeline never fails, whatever the data", "statement": "computeQualities, normalize and computeBestPartition(p), called in this order on any rectangular data object, never read or write out of bounds and always return a partition (ordered: tiles the axis; hierarchical: every leaf exactly once; spatiotemporal: every (leaf, slice) exactly once), before and after normalisation, whatever the numbers are: negative, infinite, NaN, zero.", "quantifier": "every arithmetic (hence IEEE with any log), every rectangular data object of any dimension up to 65535 slices, every well-built hierarchy, every p", "why_tests_cant": "Quantifies over all numeric values including every NaN propagation path, and over all shapes.", "anchors": ["src/lpaggreg/sources/oqualities.cpp: computeQualities, normalize", "src/lpaggreg/sources/hqualities.cpp: computeQualities, normalize", "src/lpaggreg/sources/dqualities.cpp: computeQualities, normalize", "src/lpaggreg/sources/opartitioner.cpp: computeBestPartition", "src/lpaggreg/sources/hpartitioner.cpp: computeBestPartition", "src/lpaggreg/sources/dpartitioner.cpp: computeBestPartition"]}
{"id": "C56", "title": "Computing a partition does not disturb shared quality objects", "statement": "computeBestPartition(p) changes no quality object that exists when it is called (in particular not the table it reads, nor earlier partitions), although its internal tradeoffs share and mutate quality objects; the returned parts hold the table's own quality objects, and the total is a new object that nobody else holds.", "quantifier": "every heap of quality objects, every table of pointers (shared or not), every hierarchy and every p, every arithmetic", "why_tests_cant": "Aliasing errors show only for particular orders of copies and additions; the claim is for every table and every heap.", "anchors": ["src/lpaggreg/sources/tradeoff.cpp: set, operator+=", "src/lpaggreg/headers/tradeoff.h: Tradeoff (implicit copy assignment)", "src/lpaggreg/sources/opartitioner.cpp: computeBestPartition", "src/lpaggreg/sources/hpartitioner.cpp: computeBestPartition", "src/lpaggreg/sources/dpartitioner.cpp: computeBestPartition", "src/lpaggreg/sources/opartition.cpp: computeParts, computeQuality"]}
{"id": "C57", "title": "What partitions already returned report after later calls", "statement": "After any sequence of computeQualities(), normalize() and computeBestPartition(p) calls, a partition returned earlier still has the parts, parameter and total it had when it was returned, but each of its parts reports the quality that the table it came from holds now: a later normalize() of that table changes the parts (gains divided by the whole's gain) and not the total, a later computeQualities() changes neither. In all three aggregations (root last in hierarchies): after computeQualities(), computeBestPartition(p), normalize(), the total of the partition is still the sum of its parts' gains and losses as computed, while its parts' gains now add up to the total divided by the whole's gain, and their losses to the total divided by the whole's loss.", "quantifier": "every data set and every sequence of calls, of any length", "why_tests_cant": "Ranges over all call histories with shared mutable objects.", "anchors": ["src/lpaggreg/sources/oqualities.cpp: computeQualities, normalize", "src/lpaggreg/sources/hqualities.cpp: computeQualities, normalize", "src/lpaggreg/sources/dqualities.cpp: computeQualities, normalize", "src/lpaggreg/sources/opartition.cpp: computeParts, computeQuality"]}
{"id": "C58", "title": "No session fails", "statement": "Any interleaving of computeQualities(), normalize() and computeBestPartition(p), in which nothing is used before it exists, returns without an out-of-bounds access on rectangular data, answers the questions in order, and every partition obtained covers the data (tiles the axis, every leaf once, every (leaf, slice) once) when the session ends.", "quantifier": "every rectangular data set with any numbers (NaN, infinite), every well-built hierarchy with at least two nodes, every sequence of calls", "why_tests_cant": "All call histories and all numeric data.", "anchors": ["src/lpaggreg/sources/oqualities.cpp", "src/lpaggreg/sources/opartitioner.cpp", "src/lpaggreg/sources/hqualities.cpp", "src/lpaggreg/sources/hpartitioner.cpp", "src/lpaggreg/sources/dqualities.cpp", "src/lpaggreg/sources/dpartitioner.cpp"]}
{"id": "C59", "title": "What the data frames of the R interface contain", "statement": "oaggregate, haggregate and daggregate read element [i,j,k] of the R array as the value of (i,j,k), and when they return: the column Parameter of Qualities increases strictly from 0 and stays within 0 and 1; the rows of Partitions come grouped by these parameters in the same order; for each parameter the rows cover the data exactly once with 1-based indices (intervals 1..n, nodes covering every leaf once, rectangles covering every cell once), the column Size counts what a row covers, every row of Qualities is the total of the gains and losses of its rows of Partitions, and the rows are those of the best partition the C++ library computes at that parameter from the normalised qualities of the array; POpt is one of the listed parameters.", "quantifier": "every array dimension with positive sizes (at most 65535 slices), every content, every R hierarchy vector of a tree of two or more nodes, every threshold, every arithmetic in which the parameter range can be bisected", "why_tests_cant": "Index shifts and transposed loops agree on square or symmetric examples; the frames are built for arbitrarily many parameters.", "anchors": ["R/lpaggreg.R: oaggregate, haggregate, daggregate, convertToMicroModel, convertToHierarchy", "src/lpaggreg/sources/partitioner.cpp"]}
{"id": "C60", "title": "The quality curve, POpt and AUC as seen from R", "statement": "In exact arithmetic POpt is the parameter of the row of Qualities closest to gain 1 and loss 0 (the largest among equals) and AUC is one minus the area of the trapezoids under the rows of Qualities. For data of non-negative numbers whose overall gain and loss are not zero, the three functions return within the recursion depth given by the threshold, every row of Qualities lies in the unit square, gain and loss grow with the parameter, and AUC is between 0 and 1.", "quantifier": "every array, every tree (root numbered last, for the total statements), every positive threshold", "why_tests_cant": "A claim over all data and thresholds about the output of a recursive search.", "anchors": ["R/lpaggreg.R: oaggregate, haggregate, daggregate", "src/lpaggreg/sources/partitioner.cpp: computeAUC, computePOpt"]}
{"id": "C61", "title": "When the R functions return a defined result", "statement": "In the code's floating-point arithmetic, oaggregate, haggregate and daggregate return an uninitialised POpt (undefined behaviour) whenever the gain or the loss computed for the whole data is 0 or NaN; in particular oaggregate does so for arrays with a single slice, all zeros, or at most one non-zero value in every series [i,j,], and haggregate and daggregate for all zeros. With a threshold of at least 2^-24 they always terminate, and they return a result as soon as the partition at p=0 has (gain-1)^2+loss^2 <= RAND_MAX.", "quantifier": "every logarithm function (finite on positive integers, for the all-zero statements), every array, every tree of two or more nodes, every threshold", "why_tests_cant": "Reading an uninitialised variable usually goes unnoticed in a test; the condition ranges over all data.", "anchors": ["R/lpaggreg.R: oaggregate, haggregate, daggregate", "src/lpaggreg/sources/partitioner.cpp: computePOpt", "src/lpaggreg/sources/oqualities.cpp: normalize"]}
{"id": "C62", "title": "Telling a correctly built hierarchy from a wrong one", "statement": "For every valid tree given to the constructor, whatever the depths of its leaves, the path, root, children and sizes reported by the metadata object are all right if and only if getSize()[getRoot()] equals getLeaveSize(); otherwise that size is strictly smaller. No node on the path is ever reported with more leaves than it has. When the wrong construction left nodes out of the path, computeQualities() on hierarchical or spatiotemporal data reads out of bounds.", "quantifier": "every valid tree (any shape, any numbering of leaves and nodes), every data set with at least one component", "why_tests_cant": "The criterion is an equivalence over all trees; whether a tree with leaves at different depths is built correctly depends on the order in which its leaves are numbered.", "anchors": ["src/lpaggreg/sources/hvalues.cpp: HValuesMetaData::setPath, getSize, getRoot, getLeaveSize", "src/lpaggreg/sources/hqualities.cpp: computeQualities", "src/lpaggreg/sources/dqualities.cpp: computeQualities"]}
{"id": "C63", "title": "getpath agrees with the C++ path", "statement": "For every valid hierarchy vector, the R function getpath returns the same order of nodes as HValuesMetaData::getPath() (counted from 1) whenever that path holds all nodes; when it does not, getpath stops with an error or returns a vector that contains 0, which is not a node. For hierarchies whose leaves are all at the same depth, getpath returns every node once, the leaves first and in order, every node before its parent, and the root last.", "quantifier": "every valid tree (any shape and numbering), every number of leaves", "why_tests_cant": "Two independent implementations of the same traversal are compared on all trees; the loop has no bound other than the number of nodes.", "anchors": ["R/lpaggreg_pjdump.R: getpath", "src/lpaggreg/sources/hvalues.cpp: HValuesMetaData::setPath, getPath"]}
{"id": "C64", "title": "omacro and the stacked plot show the partition, without losing data", "statement": "For the result of oaggregate on any array and any parameter listed in its Qualities, omacro returns exactly one row per element of Space, element of Type and part of the partition at that parameter, whose value is the mean of the data over the slices of the part; values times part lengths add up to the data. The stacked plot has one bar per element of Type and part, as wide as the part, as high as the mean over Space and part, and the areas of the bars of a Type times the size of Space add up to the data of that Type. A parameter not in the results is an error.", "quantifier": "every array of any dimensions (Time at most 65535), every threshold, every parameter found by the search", "why_tests_cant": "It ranges over all arrays and all partitions the search can return, and over every parameter of the result.", "anchors": ["R/lpaggreg_pjdump.R: omacro, oplot_stacked_state", "R/lpaggreg.R: oaggregate"]}
{"id": "C65", "title": "hmacro and the treemaps show the partition, without losing data", "statement": "For the result of haggregate on any array and any hierarchy with all leaves at the same depth, and any parameter listed in its Qualities, hmacro returns exactly one row per node of the partition at that parameter, element of Type and element of Time, with the node's parent (the root is its own parent), the sum of the data of the leaves below the node, and the number of these leaves; values and sizes of the rows of one Type and Time add up to the data and to the number of leaves. The treemap of states shows for each node and Type the mean over Time, the treemap of counters the same divided by the number of leaves. A parameter not in the results is an error.", "quantifier": "every array of any dimensions, every tree with leaves at equal depth, every threshold, every parameter found by the search", "why_tests_cant": "It ranges over all trees, arrays, and parameters; the copy loop must visit every node after all nodes below it, which is a global property of the path.", "anchors": ["R/lpaggreg_pjdump.R: hmacro, getpath, hplot_treemap_state, hplot_treemap_perfcounter", "R/lpaggreg.R: haggregate"]}
{"id": "C66", "title": "slicerstate distributes every state over the time slices without losing time", "statement": "For every trace of states with consistent columns (Start <= End, Duration = End - Start), slicerstate returns exactly one row per resource, slice and state seen, whose Sum is the time the resource spends in the state within the slice and whose Normalized is Sum divided by the length of the trace. Over the slices the Sums of a resource and state add up to the total duration of its rows. If a resource is in one state at a time, its Sums in a slice add up to at most the slice's length and its Normalized values to at most 1/n. All n slices are present when the trace ends with a row that has a duration; otherwise trailing slices and resources that have only instants at slice borders are missing, and when nothing lies inside a slice the function fails.", "quantifier": "every trace (any number of rows, resources, states, any times), every number of slices", "why_tests_cant": "The join conditions, borders and overlaps must be right for all real times; the conservation of time is a statement about all traces and all slice counts.", "anchors": ["R/lpaggreg_pjdump.R: slicerstate"]}
{"id": "C67", "title": "slicerprvcounter: time-weighted rates, normalised per counter", "statement": "Whenever slicerprvcounter returns on a trace of counters, it has exactly one row per resource, slice and counter measured; Mean is the mean over the slice, weighted by time, of the value of the next measure of the same resource and counter divided by the duration, replaced by 0 when it is negative or nothing is measured in the slice; Normalized is Mean divided by the sum of all Means of that counter, so it is between 0 and 1 and adds up to 1 for every counter. It returns for every trace with positive durations, nonnegative values and a nonzero value for every counter. The last measure of each resource and counter only gives its value to the one before, so trailing slices can be missing.", "quantifier": "every trace of counters with consistent durations, every number of slices", "why_tests_cant": "Quantifies over all traces and interleavings of resources and counters and over all real times.", "anchors": ["R/lpaggreg_pjdump.R: slicerprvcounter"]}
{"id": "C68", "title": "pjdump2micro: the array and hierarchy say what the trace says", "statement": "For every trace whose rows are consistent, pjdump2micro returns an array whose Space lists, each once and in increasing order of name, the resources seen in some slice (without those that are parents, when a hierarchy is asked for), whose Type lists the states (or counters) seen and whose Time is 1..K for the last slice K in which something is seen; element [i,j,k] is the time that resource i spends in state j within slice k divided by the length of the trace (or the mean rate of the counter, divided by the sum of the means of that counter over all resources and slices), 0 where there is nothing. With a hierarchy, the nodes are Space followed by the parents in decreasing order of name, the hierarchy vector gives for every node the place of its parent and 0 exactly for the root (the first container of the file), and it is a tree that haggregate and daggregate accept when no parent is without resources and all resources are at the same depth. It fails when some parent or some resource is not itself a container.", "quantifier": "every trace (any rows, resources, states, counters, times, containers in any order), every number of slices", "why_tests_cant": "Ranges over all traces, names and container trees; the order of names and the completeness of the cube must be right for all of them.", "anchors": ["R/lpaggreg_pjdump.R: pjdump2micro, parsepjdump"]}
{"id": "C69", "title": "A node above no leaf makes the hierarchical and spatiotemporal aggregations read out of bounds", "statement": "Whenever a node of the hierarchy has no leaf below it, it is missing from the traversal path and computeQualities never completes without an out-of-bounds access, for hierarchical and spatiotemporal data alike; so haggregate and daggregate return no result for such a hierarchy vector, and for every trace in which some container has no active resource below it, what pjdump2micro returns is unusable by haggregate and daggregate.", "quantifier": "every hierarchy vector, node and array; every trace and container tree", "why_tests_cant": "Out-of-bounds reads may silently succeed in a test; the statement ranges over all shapes of trees and all data.", "anchors": ["src/lpaggreg/sources/hvalues.cpp: HValuesMetaData::setPath, getPath", "src/lpaggreg/sources/hqualities.cpp: computeQualities", "src/lpaggreg/sources/dqualities.cpp: computeQualities", "R/lpaggreg_pjdump.R: pjdump2micro", "R/lpaggreg.R: haggregate, daggregate"]}
{"id": "C70", "title": "From the trace to the plots no time is lost", "statement": "For every trace of states, every number of slices, every threshold and every parameter found: if pjdump2micro, oaggregate and omacro are chained, the values of a resource and a state in the plot, each times the number of slices of its part, add up to the time that the resource spends in the state divided by the length of the trace; if pjdump2micro, haggregate and hmacro are chained, the values of a state over all nodes and slices add up to the sum over the resources of their time in the state divided by the length of the trace, and the sizes of the nodes at a slice add up to the number of resources.", "quantifier": "every trace, container tree, number of slices, threshold, parameter in the result", "why_tests_cant": "A conservation law over whole pipelines: it must hold for all traces and all partitions that the search may find.", "anchors": ["R/lpaggreg_pjdump.R: pjdump2micro, slicerstate", "R/lpaggreg.R: oaggregate, haggregate", "R/lpaggreg_pjdump.R: omacro, hmacro"]}
{"id": "C71", "title": "From the trace to well-formed quality curves, and where the root is placed", "statement": "pjdump2micro puts the root of the hierarchy in the last place exactly when its name comes first among the names of all parents. For every consistent trace whose last slice is not empty: oaggregate on the result of pjdump2micro returns, for every positive threshold, qualities within [0,1] that grow with the parameter and an AUC within [0,1], provided some resource is in a state in two slices and some resource is not equally long in a state in all slices; haggregate and daggregate do too if moreover the name of the root comes first, no container is without active resources, all resources are at the same depth, and two resources (or resource-slice pairs) share a state and differ in the time spent.", "quantifier": "every trace, container tree, number of slices, threshold", "why_tests_cant": "All traces, all names and trees; the curve properties are inequalities over all parameters found.", "anchors": ["R/lpaggreg_pjdump.R: pjdump2micro", "R/lpaggreg.R: oaggregate, haggregate, daggregate", "src/lpaggreg/sources/hqualities.cpp: normalize", "src/lpaggreg/sources/dqualities.cpp: normalize"]}
{"id": "C72", "title": "Every listed partition is the best one, in terms of the array alone", "statement": "For every array, hierarchy and threshold and every row (p, gain, loss) of Qualities that oaggregate, haggregate or daggregate return: the Gain and Loss of the rows of Partitions at p are the gain and loss of the values micro[i,j,k] of that interval / node / rectangle (S*log2 S minus sum of v*log2 v; S*log2 of the count minus the gain) divided by those of the whole - except nodes numbered after the root, whose values stay undivided - and the row's gain and loss are their sums; and no other way of cutting the slices / choosing nodes that cover each element once / covering all cells by rectangles in which time never moves up the tree has a larger p*gain-(1-p)*loss; ties go to the coarser (hierarchy) or the one with more gain.", "quantifier": "every array, hierarchy vector, threshold, listed parameter, competing partition", "why_tests_cant": "Optimality ranges over exponentially many competing partitions for every array and parameter.", "anchors": ["R/lpaggreg.R: oaggregate, haggregate, daggregate", "src/lpaggreg/sources/opartitioner.cpp: computeBestPartition", "src/lpaggreg/sources/hpartitioner.cpp: computeBestPartition", "src/lpaggreg/sources/dpartitioner.cpp: computeBestPartition", "src/lpaggreg/sources/hqualities.cpp: normalize", "src/lpaggreg/sources/dqualities.cpp: normalize"]}
{"id": "C73", "title": "A root that is not the last node: the whole is never chosen, and POpt may be uninitialised", "statement": "If the root of the hierarchy is not the last node and nodes numbered after it cover all elements with a total gain above 1 bit and a loss below 1 bit, then haggregate and daggregate return the whole (the root) at no parameter, although it may be the best choice near 1. If moreover these nodes have no loss (equal values below each) and a total gain above 46342 bits, every quality found is too far from (1,0) for POpt to be set: haggregate (when the nodes are the children of the root) and daggregate read an uninitialised variable, whatever the threshold.", "quantifier": "every array of non-negative values, hierarchy vector with a root that is not last, threshold", "why_tests_cant": "Reading an uninitialised variable usually goes unnoticed in a test, and the statement ranges over all arrays and trees of that kind.", "anchors": ["src/lpaggreg/sources/hqualities.cpp: normalize", "src/lpaggreg/sources/dqualities.cpp: normalize", "src/lpaggreg/sources/partitioner.cpp: computePOpt, getP", "R/lpaggreg.R: haggregate, daggregate"]}
{"id": "C74", "title": "From the lines of the pjdump file to the array and the hierarchy", "statement": "For every pjdump file whose state lines have Start <= End and Duration = End - Start: parsepjdump followed by pjdump2micro(\"State\") returns an array whose element for a resource, a state and a slice is the time that the State lines of the file put the resource in the state within the slice, divided by the length of the trace, and a hierarchy vector in which every node points to the container that its Container line names as parent (0 for the container named first). The lines of other natures play no role. For Variable lines, an element is the mean rate of the counter in the slice (the value of the next line of the same resource and counter divided by the duration, weighted by time, 0 if negative or not measured), divided by the sum of these over all resources and slices.", "quantifier": "all files (any number and order of lines of all natures), all numbers of slices, with and without a hierarchy", "why_tests_cant": "the statement ranges over all files and real-valued times; the one file in the repository exercises only one layout", "anchors": ["R/lpaggreg_pjdump.R: parsepjdump, pjdump2micro, slicerstate, slicerprvcounter"]}
{"id": "C75", "title": "Rounding moves the chosen partition away from the optimum by a bounded amount", "statement": "In the arithmetic of the code (80-bit long double qualities, float parameters, round to nearest): if every gain and loss of the quality table is finite and at most B in absolute value, then for every parameter p in [0,1] and every other admissible partition (tiling of the slices / cover of the elements by nodes / cover of the cells by rectangles in which time never moves up the tree), the exact sum of p*gain-(1-p)*loss of the partition that the ordered, hierarchical or spatiotemporal aggregation returns for p is at least that of the other one, minus n*n*B/2^59, where n is the number of slices / elements / cells and 1-p is the float nearest to 1-p. Reported total gain and loss are finite and differ from the exact sums over the parts by at most a quarter of that.", "quantifier": "every table of finite long doubles, every tree, every float parameter in [0,1], every competing partition", "why_tests_cant": "The optimum ranges over exponentially many partitions and the rounding errors depend on every table entry; a test checks a few tables only.", "anchors": ["src/lpaggreg/sources/opartitioner.cpp: computeBestPartition", "src/lpaggreg/sources/hpartitioner.cpp: computeBestPartition", "src/lpaggreg/sources/dpartitioner.cpp: computeBestPartition", "src/lpaggreg/sources/tradeoff.cpp: set", "src/lpaggreg/sources/quality.cpp"]}
{"id": "C76", "title": "Gain and loss grow with the parameter, up to rounding, in the code's own arithmetic", "statement": "Under the same conditions, for two float parameters p1, p2 in [0,1] with p1 + 2^-23 <= p2, the total gain and the total loss of the partition returned for p2 are at least those of the partition returned for p1, minus 4*n*n*B/2^59/(p2-p1).", "quantifier": "every table of finite long doubles, every tree, every pair of float parameters at least 2^-23 apart", "why_tests_cant": "In exact arithmetic the curves are monotone (C29); whether rounding can break this, and by how much, is a statement about all tables and all pairs of parameters.", "anchors": ["src/lpaggreg/sources/opartitioner.cpp: computeBestPartition", "src/lpaggreg/sources/hpartitioner.cpp: computeBestPartition", "src/lpaggreg/sources/dpartitioner.cpp: computeBestPartition", "src/lpaggreg/sources/partitioner.cpp: computeParameters"]}
{"id": "C77", "title": "Quality tables computed in long double are accurate", "statement": "If every value of the data is a non-negative floating-point number that is zero or at least 2^(1-E), their sum is at most 2^(E-1), and the C library's log is off by at most d(1+|ln x|), then computeQualities never yields an infinity or NaN, and every stored gain and every stored loss (of an interval, node, or rectangle) differs from the exact information-theoretic gain and loss of the data by at most E(75 d + k/2^56) times the total of the values aggregated there, k being the number of values of one component plus the number of components.", "quantifier": "all three aggregation kinds, all sizes, all values, all hierarchies, all logs with that accuracy, all 32 <= E <= 8000", "why_tests_cant": "A test compares a few computed numbers to a tolerance guessed by its author; the bound has to hold for every data set, size and tree, including those where cancellation in the loss is worst.", "anchors": ["src/lpaggreg/sources/complexity.cpp:entropy,entropyReduction,divergence", "src/lpaggreg/sources/oqualities.cpp:computeQualities", "src/lpaggreg/sources/hqualities.cpp:computeQualities", "src/lpaggreg/sources/dqualities.cpp:computeQualities"]}
{"id": "C78", "title": "From data to partition, rounding costs a bounded amount of information", "statement": "For data as in C77 and any parameter in [0,1], computing the qualities and then the best partition in the code's own arithmetic succeeds, and no other partition of the same kind has an exact value (weight p on gain, the float 1-p on loss) exceeding that of the returned one by more than E(300 d + (n+K)/2^54 + n^2/2^57) times the total of the data, n being the number of microscopic cells and K the number of components.", "quantifier": "all three aggregation kinds, all data, sizes, hierarchies, parameters and competing partitions", "why_tests_cant": "The set of competing partitions is exponential and the accumulated rounding depends on the data; only a proof bounds it for every input.", "anchors": ["src/lpaggreg/sources/complexity.cpp", "src/lpaggreg/sources/opartitioner.cpp:computeBestPartition", "src/lpaggreg/sources/hpartitioner.cpp:computeBestPartition", "src/lpaggreg/sources/dpartitioner.cpp:computeBestPartition", "src/lpaggreg/sources/tradeoff.cpp"]}
{"id": "C79", "title": "Normalised qualities computed in long double are accurate", "statement": "For data as in C77 whose exact gain and loss of the whole are at least twice the rounding error of C77 (so the whole is neither a single value nor uniform, up to rounding), computing the qualities and normalising them succeeds, never yields an infinity or NaN, and every stored gain (loss) differs from the exact ratio of the gain (loss) of its interval, node or rectangle to that of the whole by at most 6 E(75 d + k/2^56) t/g, where t is the total of the data and g the gain (loss) of the whole. For the two tree kinds the root is the last node.", "quantifier": "all three aggregation kinds, all sizes, all values, all hierarchies, all logs with accuracy d, all 32 <= E <= 8000", "why_tests_cant": "The division amplifies rounding errors without bound as the measure of the whole gets small; only a proof over all data tells when the normalised numbers can be trusted.", "anchors": ["src/lpaggreg/sources/oqualities.cpp:normalize", "src/lpaggreg/sources/hqualities.cpp:normalize", "src/lpaggreg/sources/dqualities.cpp:normalize", "src/lpaggreg/sources/quality.cpp"]}
{"id": "C80", "title": "Partitions computed from normalised qualities are optimal up to rounding", "statement": "For data as in C79 and any parameter in [0,1], computing the qualities, normalising them and computing the best partition in the code's own arithmetic succeeds, and no other partition of the slices, other set of nodes covering every leaf once, or (spatiotemporal) cover by rectangles whose nodes never move up has an exact normalised value exceeding that of the returned one by more than twice the sum of the two error bounds of C79 plus N^2/2^57, N being the number of elementary cells. The total gain and loss reported with the partition are its exact normalised totals up to the error bound of C79 plus N^2/2^59.", "quantifier": "all three aggregation kinds, all sizes, all values, all hierarchies, all competitors, all float parameters in [0,1], all logs with accuracy d", "why_tests_cant": "It compares the returned partition with exponentially many competitors under the exact (irrational) normalised measures.", "anchors": ["src/lpaggreg/sources/oqualities.cpp:normalize", "src/lpaggreg/sources/opartitioner.cpp", "src/lpaggreg/sources/hpartitioner.cpp", "src/lpaggreg/sources/dpartitioner.cpp"]}
{"id": "C81", "title": "Sums and means of parts are accurate in double, and exact for counts", "statement": "For finite double data whose absolute values add up to at most 2^1000 per component, every (sum, mean) the aggregation classes report for a part they handle (hierarchical parts: nodes whose children are all leaves) is finite, the sum is within k/2^52 of the sum of absolute values of the part's cells from the exact sum, k being the number of cells added (spatiotemporal: leaves plus twice the slices), and the mean within one more unit of the exact mean. If the data are integers with absolute values adding up to at most 2^53, the sum is exact and the mean is the exact mean correctly rounded. Summing the ordered parts of any partition gives the total of the data up to n/2^52 of the sum of absolute values.", "quantifier": "all three aggregation kinds, all dimensions 1-4, all sizes, all data, all partitions", "why_tests_cant": "The bounds must hold for every magnitude and sign pattern of the data, including cancellation, subnormals and values near the overflow threshold.", "anchors": ["src/lpaggreg/sources/oaggregationn.cpp", "src/lpaggreg/sources/haggregationn.cpp", "src/lpaggreg/sources/daggregationn.cpp", "src/lpaggreg/headers/oaggregationn.h"]}
{"id": "C82", "title": "What the R functions return is right up to the rounding of the code's own arithmetic", "statement": "Call oaggregate, haggregate (root numbered last) or daggregate (root numbered last) with an array of non-negative numbers that are 0 or at least 2^(1-E), whose total is at most 2^(E-1), whose gain and loss over the whole array are above twice the rounding-error bound, and a threshold of at least 2^-24, long double qualities, float parameters and conversion to double as in the code, with a logarithm of relative accuracy d. Then the call returns; and for every row (p, gain, loss) of Qualities the rows of Partitions with parameter p are a partition of the array (tiling of the slices, cut of the tree, cover by node x interval rectangles); each of them shows the exact gain and loss of its part divided by those of the whole, up to an explicit bound; the row of Qualities shows the exact totals of these, up to an explicit bound; and no other partition (for daggregate: no other cover in which time never moves up the tree) has an exact information p*gain-(1-p)*loss larger by more than an explicit bound.", "quantifier": "all arrays, sizes, trees of uniform depth, thresholds, logarithms of the stated accuracy, rows of the result", "why_tests_cant": "It bounds the effect of every rounding in every intermediate result for every data set, and compares the result with exponentially many other partitions.", "anchors": ["R/lpaggreg.R:oaggregate", "R/lpaggreg.R:haggregate", "R/lpaggreg.R:daggregate", "R/lpaggreg.R:convertToMicroModel", "src/lpaggreg/sources/oqualities.cpp:normalize", "src/lpaggreg/sources/hqualities.cpp:normalize", "src/lpaggreg/sources/dqualities.cpp:normalize", "src/lpaggreg/sources/opartitioner.cpp:computeBestPartition"]}
{"id": "C83", "title": "POpt and AUC describe the data frame that R shows, in floating point", "statement": "Whenever oaggregate, haggregate or daggregate returns and every row of Qualities shows finite gain and loss between -1 and 2, POpt is one of the listed parameters and no other row is nearer to the ideal point (gain 1, loss 0) than the row of POpt, up to 2^-43 in squared distance; and with n <= 2^20 rows AUC is finite and equals 1 minus the trapezoid area under the shown (gain, loss) points up to n*2^-19*(V+1), V being the total variation of the shown gains (single-precision accumulation, long double terms, doubles shown). With data as in C82 and an error bound of at most 1 every row is such, so this holds of every result, and there is one.", "quantifier": "every array of long doubles (finite, infinite or NaN entries), every tree, every threshold above 2^-24, every logarithm function, every amount of fuel", "why_tests_cant": "rounding depends on every value of every row; a test compares a few AUC values with a tolerance picked by hand", "anchors": ["src/lpaggreg/sources/partitioner.cpp:computeAUC", "src/lpaggreg/sources/partitioner.cpp:computePOpt", "R/lpaggreg.R:oaggregate", "R/lpaggreg.R:haggregate", "R/lpaggreg.R:daggregate"]}
{"id": "C84", "title": "Only the flattened data matter, not the number of dimensions of the input", "statement": "For rectangular input data, in any arithmetic and bit for bit: the qualities (and the normalised qualities) computed from a 1-, 3- or 4-dimensional container are exactly those computed from the container of the base dimension holding the same numbers flattened in row-major order, with the same hierarchy; if one fails the other fails the same way, for every parent vector. So adding dimensions to the input changes nothing but the number of components.", "quantifier": "every rectangular data array of 1 to 4 dimensions, every parent vector (valid or not), every arithmetic (exact or floating point), ordered, hierarchical and spatiotemporal", "why_tests_cant": "The flattened index arithmetic (toI, toJ, toK by division and remainder) must be right for every combination of sizes, and equality must hold to the last bit for every data set.", "anchors": ["src/lpaggreg/sources/ovaluesn.cpp:OValuesN3::toI", "src/lpaggreg/sources/ovaluesn.cpp:OValuesN4::toJ", "src/lpaggreg/sources/hvaluesn.cpp:HValuesN4::toI", "src/lpaggreg/sources/dvaluesn.cpp:DValuesN4::toI"]}
{"id": "C85", "title": "The number of components in 32-bit words: exact below 2^31, silently truncated or undefined above", "statement": "Sizes of the 3- and 4-dimensional containers are products stored in 32-bit unsigned integers and looped over with an int. For rectangular data with n components the qualities computed by the machine are those of the mathematical definition when n < 2^31 (every dimension of the input, any arithmetic, any parent vector); in general they are those of the first n mod 2^32 components only, and the behaviour is undefined when n mod 2^32 >= 2^31. In particular 65536 x 65536 components yield all-zero gains and losses without any error, and in a 4-dimensional ordered container whose last two component dimensions multiply to more than 2^32 a component can be read from the wrong row.", "quantifier": "every rectangular 3- or 4-dimensional data array, every parent vector, every arithmetic", "why_tests_cant": "Inputs beyond the limit need tens of gigabytes, and agreement below the limit must hold for every combination of dimensions.", "anchors": ["src/lpaggreg/sources/ovaluesn.cpp:OValuesN3", "src/lpaggreg/sources/ovaluesn.cpp:OValuesN4::toI", "src/lpaggreg/sources/hvaluesn.cpp:HValuesN4", "src/lpaggreg/sources/dvaluesn.cpp:DValuesN4", "src/lpaggreg/sources/oqualities.cpp:computeQualities"]}
{"id": "C86", "title": "Order of components and all-zero components do not matter", "statement": "In exact arithmetic, two data sets with the same slices and hierarchy whose components (rows per metric) are the same up to order and up to components that are zero everywhere give identical quality tables, plain and normalised - hence identical partitions for every parameter. Ordered, hierarchical and spatiotemporal.", "quantifier": "every pair of data sets of supported size related by reordering components and adding or dropping zero components, every hierarchy", "why_tests_cant": "All orders and all numbers of zero components of all data sets.", "anchors": ["src/lpaggreg/sources/oqualities.cpp:computeQualities", "src/lpaggreg/sources/hqualities.cpp:computeQualities", "src/lpaggreg/sources/dqualities.cpp:computeQualities"]}
{"id": "C87", "title": "Running time backwards: mirrored qualities; same best value for ordered data, but not for spatiotemporal data", "statement": "Exact arithmetic. If every row is reversed, the quality of the interval i..j becomes that of the mirrored interval n-1-j..n-1-i (for every node, in the spatiotemporal case). For ordered data the best partition of the reversed data has, for every parameter, the same total gain and loss. For spatiotemporal data this is false: there is a data set (two leaves, two slices) and a parameter for which the partition returned for the reversed data is strictly better than the one returned for the data.", "quantifier": "every data set of supported size and every parameter (refutation: a concrete one)", "why_tests_cant": "Universal over data and parameters; the asymmetry of the spatiotemporal algorithm is invisible on symmetric examples.", "anchors": ["src/lpaggreg/sources/oqualities.cpp:computeQualities", "src/lpaggreg/sources/opartitioner.cpp:computeBestPartition", "src/lpaggreg/sources/dpartitioner.cpp:computeBestPartition"]}
{"id": "C88", "title": "The numbering of leaves and nodes does not matter", "statement": "Exact arithmetic. If two hierarchies differ only by a renaming of nodes (leaves to leaves, parents to parents) and the data are renamed accordingly, then every node has the same quality under its new name; for every parameter the hierarchical partition returned consists of exactly the renamed nodes, with the same total gain and loss; and the spatiotemporal partition has the same total gain and loss.", "quantifier": "every pair of valid hierarchies of uniform depth related by a renaming, every data set, every parameter", "why_tests_cant": "All renamings of all trees; ties between equally good partitions could depend on numbering.", "anchors": ["src/lpaggreg/sources/hvalues.cpp:HValuesMetaData", "src/lpaggreg/sources/hpartitioner.cpp:computeBestPartition", "src/lpaggreg/sources/dpartitioner.cpp:computeBestPartition"]}
{"id": "C89", "title": "Where two of the three aggregations apply to the same data they agree", "statement": "Hierarchical data passed to the spatiotemporal aggregation as data with one time slice: the two quality tables (before and after normalize()) hold the same gains and losses, in any arithmetic; and in exact arithmetic, for non-negative data, computeBestPartition(p) returns the same nodes (each over slice [0,0]) with the same quality for every p whose loss weight is not 0. With loss weight 0 (p=1) the hierarchical partition is the root alone while the spatiotemporal one has the same gain and no more loss - strictly less for the leaves (5,0). Ordered data passed to the spatiotemporal aggregation as the single leaf of a two-node hierarchy: both rows of its quality table hold the ordered table, and computeBestPartition(p) returns the same intervals with the same quality for every p; the parts are on the root if there is a single part and on the leaf otherwise.", "quantifier": "every rectangular data set, every valid hierarchy of uniform depth, every parameter, every arithmetic (tables) or exact arithmetic (partitions)", "why_tests_cant": "three separately written dynamic programs with different tie-breaking are compared on all data, hierarchies and parameters; a test compares finitely many runs and cannot exclude ties resolved differently", "anchors": ["src/lpaggreg/sources/hqualities.cpp:HQualities::computeQualities", "src/lpaggreg/sources/dqualities.cpp:DQualities::computeQualities", "src/lpaggreg/sources/oqualities.cpp:OQualities::computeQualities", "src/lpaggreg/sources/hpartitioner.cpp:HPartitioner::computeBestPartition", "src/lpaggreg/sources/dpartitioner.cpp:DPartitioner::computeBestPartition", "src/lpaggreg/sources/opartitioner.cpp:OPartitioner::computeBestPartition"]}
{"id": "C90", "title": "As p grows hierarchical partitions only get coarser; ordered and spatiotemporal ones do not", "statement": "In exact arithmetic, for non-negative data and 0<=p1<p2<=1, every node of the hierarchical best partition at p1 lies below (or equals) a node of the best partition at p2; hence the list returned by computeBestPartitions on a range inside [0,1] has at most (number of inner nodes + 1) entries, and haggregate's Partitions data frame (root last, positive gain and loss of the whole) is a multi-resolution hierarchy. This fails for the other two aggregations: for one component with the slices 1, 2, 6 the ordered partition at p=1/5 is {0,1},{2} and at p=27/100 it is {0},{1,2}, and the same happens to a single leaf in the spatiotemporal aggregation.", "quantifier": "every data set, hierarchy with leaves at one depth, pair of parameters, threshold and fuel; existential for the refutations", "why_tests_cant": "Quantifies over all pairs of parameters and all data.", "anchors": ["src/lpaggreg/sources/hpartitioner.cpp: computeBestPartition, computeBestPartitions", "src/lpaggreg/sources/opartitioner.cpp: computeBestPartition", "src/lpaggreg/sources/dpartitioner.cpp: computeBestPartition", "R/lpaggreg.R: haggregate"]}
{"id": "C91", "title": "The spatiotemporal partition is at least as good as any combination of one-dimensional ones", "statement": "In exact arithmetic, for every parameter, the partition returned by DPartitioner::computeBestPartition is at least as good (value, then gain, then loss) as: any grid (node cover times interval tiling); any node cover in which every node has its own tiling of time, in particular the best ordered partitions of the rows; the best purely temporal partition of the root; and the best purely spatial partition of the whole time axis. The same holds for every row of the data frames of daggregate. It can be strictly better than every grid: leaves (1,1) and (1,0), p=1/4.", "quantifier": "every quality table over a well-built hierarchy, every parameter, every node cover and tilings; every data set for R", "why_tests_cant": "The number of grids is exponential; all tables and parameters.", "anchors": ["src/lpaggreg/sources/dpartitioner.cpp: computeBestPartition, computeBestCuts", "src/lpaggreg/sources/opartitioner.cpp: computeBestPartition", "src/lpaggreg/sources/hpartitioner.cpp: computeBestPartition", "R/lpaggreg.R: daggregate"]}
{"id": "C92", "title": "Ragged data: longer inner vectors are silently cut, shorter ones are read out of bounds; empty data give empty tables", "statement": "The data constructors take their sizes from the first inner vector of each level and check nothing. For every arithmetic and every container class: computeQualities (and normalize) give exactly the result, defined or not, of the data with every inner vector cut to the sizes of the first ones; if the last size is at least 1 (and the tree is valid with its leaves at one depth), computeQualities succeeds exactly when the cut data are rectangular and otherwise reads outside a vector; data whose first inner vector is empty give an empty table (hierarchical: all-zero qualities), and normalising an empty ordered or spatiotemporal table is an access outside it.", "quantifier": "every nested vector of 2, 3 or 4 levels with any inner lengths, every parent vector, every arithmetic", "why_tests_cant": "Quantifies over all shapes of nested vectors; an out-of-bounds read may go unnoticed in a test.", "anchors": ["src/lpaggreg/headers/lpglobal.h: SIZE1..SIZE4", "src/lpaggreg/sources/ovaluesn.cpp: constructors, operator[]", "src/lpaggreg/sources/hvaluesn.cpp: constructors, getValue", "src/lpaggreg/sources/dvaluesn.cpp: constructors, getValue", "src/lpaggreg/sources/oqualities.cpp: computeQualities, normalize"]}
{"id": "C93", "title": "The parameter search computes at most 2 + k(K-1) partitions", "statement": "computeBestPartitions(threshold, min, max) calls computeBestPartition once for min, once for max and once for every bisection point, and never otherwise. If K parameters are listed at the end (getPList) and (max-min)/threshold <= 2^k, the number of calls is between K and 2 + k(K-1): the work grows with the number of results times the logarithm of the resolution, not with the resolution. In the machine's float arithmetic the same holds with the slightly smaller threshold of C34. On a hierarchy of data with non-negative values the number of calls is at most 2 + k times the number of inner nodes.", "quantifier": "every table of every size for the three partitioners, every tree for the hierarchical and spatiotemporal ones, every threshold, range and previous state of the object; any arithmetic in which parameters can be bisected, exact arithmetic and IEEE float", "why_tests_cant": "the number of bisection points depends on where partitions change; a test measures the calls of a few tables and thresholds, not the worst case over all", "anchors": ["src/lpaggreg/sources/opartitioner.cpp: OPartitioner::computeBestPartitions, addBestQualities", "src/lpaggreg/sources/hpartitioner.cpp: HPartitioner::computeBestPartitions, addBestQualities", "src/lpaggreg/sources/dpartitioner.cpp: DPartitioner::computeBestPartitions, addBestQualities"]}
{"id": "C94", "title": "Parameter bounds in the wrong order", "statement": "If computeBestPartitions(threshold, min, max) is called with max below min and a threshold that is not negative, no parameter in between is tried: only the two ends are listed (getPList in the order given, getPartitions, getQualityList and the tuples in increasing order), or only the first end when both have the same partition. getP(P_MAX) then returns the smaller parameter and computeAUC() returns 1 plus, instead of 1 minus, the area, so at least 1 when losses are not negative.", "quantifier": "every table of the three partitioners, every hierarchy, every pair of bounds in the wrong order, every non-negative threshold, every previous state; any arithmetic, exact arithmetic and IEEE float", "why_tests_cant": "a test calls the search with a few bounds; the statement is about all tables and all bounds", "anchors": ["src/lpaggreg/sources/opartitioner.cpp: OPartitioner::computeBestPartitions, addBestQualities", "src/lpaggreg/sources/hpartitioner.cpp: HPartitioner::computeBestPartitions", "src/lpaggreg/sources/dpartitioner.cpp: DPartitioner::computeBestPartitions", "src/lpaggreg/sources/partitioner.cpp: getP, computeAUC"]}
{"id": "C95", "title": "Data that are alike are kept together", "statement": "For 0 < p < 1, with or without normalize(): two neighbouring time slices with the same data in every component are in the same part of the computed ordered partition, unless the parts on both sides contain no data at all; hence a run of equal slices with some data is never cut. A part without data that ends before the last slice is a single slice, so idle phases are shown slice by slice except at the end of the trace. In a hierarchical partition a node all of whose leaves have the same data is never split (0 <= p <= 1).", "quantifier": "every non-negative data set, every size, every parameter p, every position of the run or node", "why_tests_cant": "The claim is about all data sets and all p; it rests on strict convexity of the entropy measures and on the tie-breaking of the dynamic program.", "anchors": ["src/lpaggreg/sources/opartitioner.cpp: OPartitioner::computeBestPartition", "src/lpaggreg/sources/hpartitioner.cpp: HPartitioner::computeBestPartition", "src/lpaggreg/sources/oqualities.cpp: computeQualities", "src/lpaggreg/sources/hqualities.cpp: computeQualities"]}
{"id": "C96", "title": "A finer time resolution that adds no information does not change the result", "statement": "Divide every slice into m slices with an equal share of its data. The loss of every coarse interval is unchanged and its gain grows by log2(m) times the data in it; the best value at p grows by p log2(m) times all the data; and if every slice has some data, the computed parts are the same intervals of time. After normalize() the same holds with p replaced by p G'/(p G' + (1-p) G), where G and G' are the gains of the whole at the two resolutions.", "quantifier": "every m >= 1, every non-negative data set with n*m <= 65535 slices, every 0 < p < 1", "why_tests_cant": "Ranges over all data, all refinements and all p; a test compares one pair of runs.", "anchors": ["src/lpaggreg/sources/opartitioner.cpp: OPartitioner::computeBestPartition", "src/lpaggreg/sources/oqualities.cpp: computeQualities, normalize", "src/lpaggreg/sources/quality.cpp"]}
{"id": "C97", "title": "Types of events added up", "statement": "Replace groups of components (types of events, third and fourth dimension) by their sums, slice by slice and leaf by leaf. Then, without normalize(), no gain of any cell of the table becomes smaller and no loss becomes larger, and the value of the best partition at every p (with non-negative weights) does not decrease: analysing a total never reports a larger loss than analysing the types one by one. If the components of each group are multiples of the same one, the tables, plain and normalised, and hence every result, are the same.", "quantifier": "every non-negative data set, every size and hierarchy, every grouping of the components, every p with non-negative weights; ordered, hierarchical and spatiotemporal aggregation", "why_tests_cant": "It is the log-sum inequality for all data and all groupings, carried through the dynamic programs; a test compares a few tables.", "anchors": ["src/lpaggreg/sources/oqualities.cpp: OQualities::computeQualities", "src/lpaggreg/sources/hqualities.cpp: HQualities::computeQualities", "src/lpaggreg/sources/dqualities.cpp: DQualities::computeQualities", "src/lpaggreg/sources/opartitioner.cpp: OPartitioner::computeBestPartition"]}
{"id": "C98", "title": "Zooming into a displayed part shows the same thing", "statement": "Running the aggregation again on a part of the data is consistent with what the whole showed. Slices a..b alone have exactly the qualities those intervals have in the whole (any arithmetic). Starting from a displayed cut, the slices up to the end give exactly the parts displayed there, with the same qualities (any arithmetic); between two displayed cuts the gain and loss of the zoomed partition are the sums over the parts displayed there. The subtree of a node alone has the qualities of the nodes below it, and, if the overview displayed parts below the node, the zoomed partition displays exactly these parts; changing qualities elsewhere in the hierarchy does not change the parts below a node that stays disaggregated. For the spatiotemporal overview the same holds for the subtree of a displayed rectangle's node from that rectangle's start to the end of time.", "quantifier": "for all data, hierarchies, subtrees, intervals and parameters", "why_tests_cant": "Tests aggregate whole data sets; the relation between every data set, every sub-interval or subtree of it and every parameter is not sampled.", "anchors": ["src/lpaggreg/sources/opartitioner.cpp: OPartitioner::computeBestPartition", "src/lpaggreg/sources/hpartitioner.cpp: HPartitioner::computeBestPartition", "src/lpaggreg/sources/dpartitioner.cpp: DPartitioner::computeBestPartition", "src/lpaggreg/sources/oqualities.cpp: OQualities::computeQualities", "src/lpaggreg/sources/hqualities.cpp: HQualities::computeQualities", "src/lpaggreg/sources/dqualities.cpp: DQualities::computeQualities"]}
{"id": "C99", "title": "Hierarchies with leaves at different depths can be padded with single-child nodes", "statement": "The library is wrong on a hierarchy whose leaves have different depths (C05). Any such hierarchy can be made even by inserting single-child nodes, with the root as the last node, and the analysis of the padded hierarchy is then the right one for the original: every node has the gain and loss of the leaves below the node it stands for; the displayed parts stand for nodes of the original that cover every leaf (spatiotemporal: every leaf and slice) exactly once, with the reported gain and loss as their sums; and no cover of the original by its own nodes (spatiotemporal: none that never moves back up) has a larger p*gain-(1-p)*loss; among equally good hierarchical covers every one refines the displayed one.", "quantifier": "for all hierarchies, all paddings of them, all data and parameters", "why_tests_cant": "Tests use even hierarchies; that an edited hierarchy answers for the original one is a relation between all hierarchies, paddings and data.", "anchors": ["src/lpaggreg/sources/hvalues.cpp: HValuesMetaData::setPath", "src/lpaggreg/sources/hqualities.cpp: HQualities::computeQualities", "src/lpaggreg/sources/hpartitioner.cpp: HPartitioner::computeBestPartition", "src/lpaggreg/sources/dqualities.cpp: DQualities::computeQualities", "src/lpaggreg/sources/dpartitioner.cpp: DPartitioner::computeBestPartition"]}
{"id": "C100", "title": "More levels in the hierarchy never make the result worse", "statement": "Take the same leaves with the same data in two hierarchies, where every node of the first one is also a node of the second one (with the same leaves below, ancestors staying ancestors), and the second one may have more groups. The common nodes have the same gain and loss, and at every parameter p the best partition computed on the second hierarchy is at least as good, p*gain - (1-p)*loss, as the one computed on the first; hierarchical and spatiotemporal aggregation.", "quantifier": "all data sets, all pairs of well-built hierarchies related by such an embedding, all parameters, exact arithmetic", "why_tests_cant": "the claim compares two runs on unboundedly many pairs of hierarchies and data", "anchors": ["src/lpaggreg/sources/hpartitioner.cpp: HPartitioner::computeBestPartition", "src/lpaggreg/sources/dpartitioner.cpp: DPartitioner::computeBestPartition", "src/lpaggreg/sources/hqualities.cpp: HQualities::computeQualities", "src/lpaggreg/sources/dqualities.cpp: DQualities::computeQualities"]}
{"id": "C101", "title": "A finer space resolution that adds no information does not change the result", "statement": "Replace every leaf of a hierarchy by a group of k new leaves, each with an equal share of the leaf's data. The loss of every old node is unchanged and its gain grows by log2(k) times the data below it; the hierarchical partition computed at p consists of exactly the same nodes (no new leaf is ever displayed), its gain grows by log2(k) times all the data and its loss is unchanged. After normalize() (root last) the same nodes are found at p' = p G'/(p G' + (1-p) G), where G and G' are the gains of the whole. In spatiotemporal aggregation, with equal shares in every slice, the same holds of every node and interval and (k >= 2, same p) of the computed parts: the same nodes over the same slices, loss unchanged, gain increased by log2(k) times all the data. After normalize() (root last) the same parts are found at p' = p G'/(p G' + (1-p) G), with p <= p' < 1.", "quantifier": "all k >= 1, all well-built hierarchies of uniform depth, all non-negative data with any number of components, all parameters of non-negative weight, exact arithmetic", "why_tests_cant": "the claim relates two runs for every hierarchy, every data set, every k and every parameter", "anchors": ["src/lpaggreg/sources/hpartitioner.cpp: HPartitioner::computeBestPartition", "src/lpaggreg/sources/hqualities.cpp: HQualities::computeQualities", "src/lpaggreg/sources/hqualities.cpp: HQualities::normalize", "src/lpaggreg/sources/dpartitioner.cpp: DPartitioner::computeBestPartition", "src/lpaggreg/sources/dqualities.cpp: DQualities::computeQualities"]}
{"id": "C102", "title": "A finer time resolution that adds no information does not allow a better spatiotemporal partition", "statement": "Divide every slice of every leaf into k slices with an equal share of its data, over the same hierarchy. The loss of every node over every old interval is unchanged and its gain grows by log2(k) times the data in it. The old computed partition, read on the finer axis, is a partition that the finer run can display, and the value p gain - (1-p) loss of the partition computed on the finer axis is exactly that of the old one plus p log2(k) times all the data: no cut inside an old slice can improve it. After normalize() (root last), with G and G' the gains of the whole and p' = p G'/(p G' + (1-p) G), the value at p' on the finer axis is exactly G/(p G' + (1-p) G) times (the old value at p plus p/G log2(k) times all the data), and p <= p' < 1.", "quantifier": "every k >= 1, every well-built hierarchy of uniform depth, every non-negative data set with at most 65535 fine slices and any number of components, every parameter with non-negative weights, exact arithmetic", "why_tests_cant": "the optimum of one run is compared with that of another for all data, all k and all p; the claim ranges over all partitions of the finer axis", "anchors": ["src/lpaggreg/sources/dpartitioner.cpp: DPartitioner::computeBestPartition", "src/lpaggreg/sources/dqualities.cpp: DQualities::computeQualities"]}
{"id": "C103", "title": "normalize() only moves the slider", "statement": "Let G and L be the gain and the loss of the whole as computed, both positive. For every p in [0,1] the best partition of the normalised table at p has exactly the same parts, in the same order, as the best partition of the table as computed at p'' = p L/(p L + (1-p) G), which is again in [0,1]; its gain is the other one's divided by G and its loss the other one's divided by L. Normalisation never makes a partition reachable or unreachable. Ordered, hierarchical and spatiotemporal aggregation (root last in the last two).", "quantifier": "all data sets of any number of components, all well-built hierarchies, all p in [0,1], exact arithmetic", "why_tests_cant": "the claim relates two runs for all data and a continuum of parameters", "anchors": ["src/lpaggreg/sources/oqualities.cpp: OQualities::normalize", "src/lpaggreg/sources/hqualities.cpp: HQualities::normalize", "src/lpaggreg/sources/dqualities.cpp: DQualities::normalize", "src/lpaggreg/sources/opartitioner.cpp: OPartitioner::computeBestPartition", "src/lpaggreg/sources/hpartitioner.cpp: HPartitioner::computeBestPartition", "src/lpaggreg/sources/dpartitioner.cpp: DPartitioner::computeBestPartition"]}
{"id": "C104", "title": "Only the proportions between components matter, not how often each is repeated", "statement": "If one data set holds every component of another exactly k >= 1 times, in any order, every gain and every loss is multiplied by k, the best partition at every parameter p has the same parts in the same order, and after normalize() (gain and loss of the whole not 0, root last) the two tables are identical. Ordered, hierarchical and spatiotemporal aggregation.", "quantifier": "all k >= 1, all data sets with any number of components, all well-built hierarchies, all parameters, exact arithmetic with any parameter representation", "why_tests_cant": "the claim relates two runs for all data and all k", "anchors": ["src/lpaggreg/sources/oqualities.cpp: OQualities::computeQualities, normalize", "src/lpaggreg/sources/hqualities.cpp: HQualities::computeQualities, normalize", "src/lpaggreg/sources/dqualities.cpp: DQualities::computeQualities, normalize", "src/lpaggreg/sources/opartitioner.cpp: OPartitioner::computeBestPartition", "src/lpaggreg/sources/hpartitioner.cpp: HPartitioner::computeBestPartition", "src/lpaggreg/sources/dpartitioner.cpp: DPartitioner::computeBestPartition"]}
