{"id": "C01", "title": "bin_slop=0 cross-correlation equals the brute-force pair count", "statement": "For process(cat1, cat2) of the 2-point classes with bin_slop=0, Linear bins or Log bins of width at most 1 in log(r), each output bin's npairs and weight equal the sum over all object pairs (o1 in cat1, o2 in cat2) whose separation lies in that bin, of 1 and w1*w2, whatever tree was built, provided (Linear) no pair sits exactly on an interior bin edge. Both provisos are needed: with a pair exactly on a Linear bin edge the count can land in the neighbouring bin (C01_linear_edge_refuted), and with Log bins wider than 1 in log(r) a bin can be wrong by a whole pair (C01_log_wide_bins_refuted).", "quantifier": "all catalogs with non-zero weights, all bin edges, all tree shapes (split method, min_top, max_top, random splits)", "why_tests_cant": "The number of point configurations and trees is infinite; a test compares one catalog with brute=True, and would miss a pruning rule that loses a pair only for special cell geometries.", "anchors": ["src/Corr2.cpp: BaseCorr2::process, process11, directProcess11, finishProcess", "include/BinType.h: BinTypeHelper<Log|Linear|TwoD>", "include/Split.h: CalcSplitSq", "docs/binning.rst: bin_slop"]}
{"id": "C02", "title": "bin_slop=0 auto-correlation equals the brute-force count of unordered pairs", "statement": "For process(cat) with bin_slop=0 (Linear bins, or Log bins of width at most 1 in log(r)) each bin's npairs and weight equal the sum over unordered pairs i<j of the catalog with separation in the bin: no pair is lost, none is counted twice, no object is paired with itself, provided (Linear) no pair is exactly on a bin edge and no pair is exactly at min_sep. The last proviso is needed: a cell whose size is exactly min_sep/2 is skipped although its two members can be exactly min_sep apart (C02_min_sep_refuted).", "quantifier": "all catalogs with non-zero weights, all bin edges, all tree shapes", "why_tests_cant": "Needs all catalogs and trees; a dropped or doubled pair may need an exact coincidence of cell size and min_sep.", "anchors": ["src/Corr2.cpp: BaseCorr2::process (auto), process2, process11"]}
{"id": "C03", "title": "Every pair is counted at most once, in exactly one bin, for any bin_slop", "statement": "During process() with any bin_slop, angle_slop, metric and bin type the pairs of objects handed to the accumulators, together with the pairs discarded, form exactly the full set of object pairs with multiplicity one; so no pair enters two bins or the same bin twice.", "quantifier": "all trees, all decisions of the pruning/splitting logic, all metrics and bin types", "why_tests_cant": "It is a statement about the whole recursion tree for every geometry, not about sampled outputs.", "anchors": ["src/Corr2.cpp: process11, process2", "include/Split.h: CalcSplitSq"]}
{"id": "C04", "title": "bin_slop bounds the binning error of every single pair", "statement": "With bin_slop>0, any pair counted in a bin has a true separation within bin_slop*bin_size of the edges of that bin (absolute separation for Linear, log separation up to second order for Log), as documented for bin_slop. (TwoD: C64.)", "quantifier": "all pairs of objects, all cells, all bins, all values of bin_slop and angle_slop", "why_tests_cant": "Tests only compare aggregate counts against brute force with a tolerance; the documented claim is per pair.", "anchors": ["include/BinType.h: singleBin", "docs/binning.rst: bin_slop"]}
{"id": "C05", "title": "Only pairs within the slop of min_sep or max_sep can be gained or lost", "statement": "For any bin_slop, a pair whose separation is inside [min_sep,max_sep) by more than the slop is counted exactly once in the output, and a pair whose separation is outside by more than the slop is not counted.", "quantifier": "all pairs, all trees, all slop values", "why_tests_cant": "Universal over geometries; a premature tooSmall/tooLarge rejection is only visible for special cell pairs.", "anchors": ["src/Corr2.cpp: process11", "include/BinType.h: tooSmallDist, tooLargeDist, isRSqInRange"]}
{"id": "C06", "title": "The result does not depend on the OpenMP schedule or number of threads", "statement": "For fixed fields, the accumulated npairs, weight, meanr, meanlogr and xi arrays are the same for every distribution of top-level cells over threads and every order in which threads add their private results (in exact arithmetic).", "quantifier": "all schedules, all thread counts, all merge orders", "why_tests_cant": "Schedules are chosen by the OS at run time and cannot be enumerated by tests.", "anchors": ["src/Corr2.cpp: BaseCorr2::process (omp parallel, addData)", "include/Corr2.h: duplicate, addData"]}
{"id": "C07", "title": "The pair traversal always terminates without touching a missing child or an out-of-range bin", "statement": "process() never follows a null child pointer, always terminates, and every bin index used to write the output arrays is in [0, nbins).", "quantifier": "all trees built by Field, all metrics with non-negative distances, all binning parameters", "why_tests_cant": "Crashes need particular size/distance ties (e.g. both cells size 0); the absence of a crash over all inputs is not testable.", "anchors": ["src/Corr2.cpp: process11, process2, directProcess11", "include/BinType.h: singleBin, calculateBinK", "include/Split.h: CalcSplitSq"]}
{"id": "C08", "title": "Building a Field loses and duplicates no object", "statement": "For every catalog and every split_method, min_size, max_size, min_top, max_top, the leaves of the top-level cells contain every object index exactly once, and each cell's N, W and sum(w*k) equal the sums over the objects below it.", "quantifier": "all catalogs, all parameters, all outcomes of std::partition/nth_element/random splits", "why_tests_cant": "The unspecified order of std::partition/nth_element and the random split make the tree nondeterministic; only an invariant covers all.", "anchors": ["src/Cell.cpp: BuildCell, SplitData, BuildCellData", "src/Field.cpp: SetupTopLevelCells, DoBuildCells"]}
{"id": "C09", "title": "Cell size bounds the distance of every member to the cell centre", "statement": "In every tree built with min_size=0, each object in a cell lies within the cell's reported size of its reported centre (flat, 3d and spherical); with min_size>0 this holds with slack min_size.", "quantifier": "all catalogs, all cells, all coordinate systems, all weightings", "why_tests_cant": "All pruning correctness relies on it for every cell of every tree.", "anchors": ["src/Cell.cpp: CalculateSizeSq, BuildCell", "src/Field.cpp: SetupTopLevelCells"]}
{"id": "C10", "title": "Every split is proper, so tree building terminates", "statement": "For each split_method, splitting a group of two or more objects yields two non-empty groups, even with duplicated positions; tree building therefore terminates for every catalog.", "quantifier": "all lists of at least two objects, all split methods, all random draws", "why_tests_cant": "Degenerate point sets (duplicates, collinear) are unbounded in number.", "anchors": ["src/Cell.cpp: SplitDataCore, SplitData, select_random", "include/Bounds.h: getSplit, getMiddle"]}
{"id": "C11", "title": "brute=True counts every pair by its own separation", "statement": "With brute=True for both catalogs each in-range pair of objects is placed in the bin containing its own separation, with its own separation in meanr and meanlogr.", "quantifier": "all catalogs, all bin edges, all bin_slop", "why_tests_cant": "Tests use brute as the oracle; the oracle itself is never checked for all inputs.", "anchors": ["src/Cell.cpp: BuildCell (brute)", "src/Corr2.cpp: process11"]}
{"id": "C12", "title": "Periodic metric is the shortest distance over all images and the tree result is exact for it", "statement": "metric='Periodic' uses the minimum distance over all lattice translations by (xperiod, yperiod, zperiod); with bin_slop=0 the tree result equals brute force with that distance.", "quantifier": "all positions, all positive periods, all trees", "why_tests_cant": "Wrap-around pairs and cells near half a period are measure-zero corner cases for random tests.", "anchors": ["include/Position.h: wrap", "include/Metric.h: MetricHelper<Periodic>", "docs/metric.rst"]}
{"id": "C13", "title": "Rlens metric is r1*sin(theta) and its pruning never loses a pair", "statement": "metric='Rlens' measures |p1| sin(theta); the effective size adjustment makes the separation of any member pair differ from the cell separation by at most the adjusted sizes, so with bin_slop=0 (and no rpar limits) the tree result equals brute force.", "quantifier": "all 3-d positions with non-zero p2, all cells", "why_tests_cant": "The code comment calls the size rule approximate; only a proof tells whether it is conservative.", "anchors": ["include/Metric.h: MetricHelper<Rlens>"]}
{"id": "C14", "title": "Arc metric bins pairs by the angle on the sky, up to a bounded excess", "statement": "With metric='Arc' the separation that is binned is the angle between the two directions. Spherical coordinates: the distance used is acos(p1.p2) exactly, and for catalogs each within a chord S_i < sqrt 2 every pair is counted in the bin of its angle, or dropped, up to the bin slop plus e = sum_i (2 asin(S_i/2) - S_i) (cell sizes are chords although distances are arcs); with bin_slop=0 and no pair within e of an edge the counts are exact, for cross- and auto-correlations. 3-d coordinates: the same for positions at least D from the observer and at most Delta < D from each other, with e = 2 (asin(Delta/D) - Delta/D); auto-correlations also need D >= 1. Without these conditions the claim is false: angles above 90 degrees are folded (C14_3d_obtuse_refuted), wide fields lose pairs inside max_sep (C14_sphere_refuted), and 3-d auto-correlations of catalogs nearer than 1 to the observer lose pairs because a length is compared with an angle (C14_3d_auto_refuted).", "quantifier": "all positions on the sphere / in 3d, all cells", "why_tests_cant": "Violations need large cells or angles beyond 90 degrees which tests do not use.", "anchors": ["include/Metric.h: MetricHelper<Arc>", "docs/metric.rst: Arc"]}
{"id": "C15", "title": "count_near returns exactly the number of objects within sep", "statement": "For sep >= 0, field.count_near(pos, sep) equals the number of catalog objects whose distance to pos is <= sep when min_size=0; with min_size>0 and non-negative position weights (spherical: sep+min_size below 90 degrees in chord) it equals the number with distance < sep. For spherical fields the test on the chord 2 sin(sep/2) is the test on the angle for 0 <= sep <= pi. Refuted: that the answer is independent of min_size (differs at distance exactly sep), and the angle reading for sep > pi.", "quantifier": "all catalogs, trees, positions and sep >= 0", "why_tests_cant": "Universal over trees and query points.", "anchors": ["src/Field.cpp: CountNear, BaseField::countNear", "treecorr/field.py: Field.count_near"]}
{"id": "C16", "title": "get_near returns exactly the indices of objects within sep", "statement": "field.get_near(pos, sep) returns, sorted and exactly once, the indices of the objects C15 counts and nothing else, whatever the freshly allocated array contained; and for any array length getNear never writes outside the array. Refuted: with min_size>0 and a negative weight the count and the collection disagree and uninitialised entries are returned.", "quantifier": "all catalogs, trees, positions and sep >= 0", "why_tests_cant": "The two traversals use different pruning rules; their agreement must hold for every tree.", "anchors": ["src/Field.cpp: GetNear, BaseField::getNear", "treecorr/field.py: Field.get_near"]}
{"id": "C17", "title": "With MPI every patch pair is computed on exactly one rank", "statement": "For process(cat1[,cat2], comm=comm) with any number of patches and ranks, each patch (pair) job is executed by exactly one rank.", "quantifier": "all communicator sizes, all patch counts (n, or n1 x n2)", "why_tests_cant": "Number of ranks and patches is unbounded; a double-assigned pair would silently double count.", "anchors": ["treecorr/corr2base.py: _process_all_auto.is_my_job, _process_all_cross.is_my_job"]}
{"id": "C18", "title": "Splitting catalogs into patches does not change the total", "statement": "Processing with patches accumulates, for each bin, the same totals (npairs, weight) as a single unpatched run at bin_slop=0, for auto and cross correlations, serial or MPI.", "quantifier": "all catalogs, all assignments of objects to patches, all numbers of ranks", "why_tests_cant": "Ranges over all patch partitions and schedules.", "anchors": ["treecorr/corr2base.py: _process_all_auto, _process_all_cross, _single_process12", "treecorr/nncorrelation.py: process_auto, process_cross"]}
{"id": "C19", "title": "NN tot is the total weight of all pairs, whatever the patches", "statement": "After process, NN tot equals (sum w)^2/2 for an auto-correlation and sum(w1)*sum(w2) for a cross-correlation, also when the work is split over patches (including patch pairs that are skipped as too far apart).", "quantifier": "all catalogs, patch partitions, ranks", "why_tests_cant": "Patch pairs skipped by the distance test take a different code path for tot.", "anchors": ["treecorr/nncorrelation.py: process_auto, process_cross, _add_tot"]}
{"id": "C20", "title": "Correlation results add: += and initialize=False accumulate independent runs", "statement": "Adding results with += (or process(..., initialize=False)) is commutative and associative with the cleared object as identity, and processing a list of catalogs accumulates the sum of the individual results. With MPI, rank 0 ends with what all the ranks had before the call plus the new pairs, so accumulating over several calls is right only if the other ranks start each call from cleared objects: with initialize=False they keep their share and it is added again (C20_mpi_initialize_refuted).", "quantifier": "all result objects with the same bins, all sequences of calls", "why_tests_cant": "Statement over all histories of calls.", "anchors": ["treecorr/corr2base.py: __iadd__, process, clear", "src/Corr2.cpp: operator+="]}
{"id": "C21", "title": "Jackknife sample i uses exactly the pairs not involving patch i", "statement": "For var_method='jackknife' the pairs used for sample i are precisely the stored patch pairs that do not involve patch i (for catalogs without patches only the other catalog's patch number counts), each once; with bin_slop=0 and the Euclidean metric the correlation summed from them has exactly the brute-force pair sums (and tot) of the rows outside patch i, whether the patches were processed serially or with MPI.", "quantifier": "all result dictionaries, all i", "why_tests_cant": "Ranges over all patch sets, including missing pairs.", "anchors": ["treecorr/corr2base.py: JackknifePairIterator"]}
{"id": "C22", "title": "Bootstrap pair multiplicities follow the resampled patch list", "statement": "For var_method='bootstrap' a stored pair (j,k) of different patches is used (multiplicity of j) x (multiplicity of k) times and an auto pair (j,j) (multiplicity of j) times; for 'marked_bootstrap' the pair (j,k) is used (multiplicity of j) times; for 'sample' the rows partition the stored pairs by their first patch.  No method asks for a pair that is not stored.", "quantifier": "all index lists, all result dictionaries", "why_tests_cant": "Multiplicities over all resamplings.", "anchors": ["treecorr/corr2base.py: BootstrapPairIterator, MarkedPairIterator, SamplePairIterator"]}
{"id": "C23", "title": "Estimated covariance matrices are symmetric (Hermitian) positive semi-definite", "statement": "estimate_cov with jackknife, sample, bootstrap or marked_bootstrap returns a Hermitian positive semi-definite matrix, invariant under a constant shift of all design-matrix rows.", "quantifier": "all design matrices of any size", "why_tests_cant": "Universal over all data.", "anchors": ["treecorr/corr2base.py: _cov_jackknife, _cov_sample, _cov_marked, _cov_bootstrap"]}
{"id": "C24", "title": "MPI computation of the covariance design matrix equals the serial one", "statement": "For any communicator size the row-distributed design matrix and weights after Allreduce equal those computed serially: always for KK-type correlations, and for NN when every row has at least one stored pair.  (With an empty row NN's _clear leaves the previous row's xi in place and the claim is false: C24_nn_empty_row_refuted.)", "quantifier": "all numbers of rows and ranks", "why_tests_cant": "Unbounded rows/ranks.", "anchors": ["treecorr/corr2base.py: _make_cov_design_matrix_core, _make_cov_design_matrix"]}
{"id": "C25", "title": "calculateXi implements the documented estimators", "statement": "NN.calculateXi returns DD/RR-1, (DD-DR-RD+RR)/RR or (DD-2DR+RR)/RR with each term scaled to the same total (tot) and 0-weight RR bins not dividing by zero.", "quantifier": "all weight arrays and tot values", "why_tests_cant": "Algebraic identity over all real inputs.", "anchors": ["treecorr/nncorrelation.py: calculateXi"]}
{"id": "C26", "title": "Binning parameters are completed consistently", "statement": "Whichever three of min_sep, max_sep, nbins, bin_size are given, the completed parameters satisfy max_sep = min_sep*exp(nbins*bin_size) (Log) or max_sep = min_sep + nbins*bin_size (Linear), nbins*bin_size = 2 max_sep (TwoD), every given value is kept except that bin_size is reduced (as little as possible) when nbins is derived, and left/right edges tile [min_sep,max_sep) without gap or overlap.  (min_sep derived for Linear binning may be negative, which nothing rejects: C26_linear_min_sep_nonneg_refuted.)", "quantifier": "all real parameter values accepted by the constructor", "why_tests_cant": "Continuous parameter space.", "anchors": ["treecorr/corr2base.py: Corr2.__init__"]}
{"id": "C27", "title": "A configuration value given as keyword overrides the config dict", "statement": "merge_config(config, kwargs, valid) returns for each valid parameter the keyword value if given, else the config value, else the default, and rejects invalid keyword names while ignoring unrelated config entries; each value used has been parsed to its type and is one of the valid values (for strings: is or uniquely starts with one).  check_config moves deprecated names to the new ones.  (merge_config ignores deprecated names in the config dict: C27_config_alias_refuted.)", "quantifier": "all dictionaries and keyword sets", "why_tests_cant": "All key/value combinations.", "anchors": ["treecorr/config.py: merge_config, check_config"]}
{"id": "C28", "title": "make_minimal_config followed by defaults restoration is lossless", "statement": "Writing only the non-default configuration items (make_minimal_config) of a configuration left by the constructor and constructing again from them yields, for every name, an equal (==) value.  (Not always the identical one: brute=0 comes back as False, C28_identical_refuted.)", "quantifier": "all configuration dictionaries and valid-parameter tables", "why_tests_cant": "Round trip over all dictionaries.", "anchors": ["treecorr/config.py: make_minimal_config, check_config"]}
{"id": "C29", "title": "The field cache is a correct bounded LRU memo", "statement": "For a cache created with maxsize > 0 and any sequence of calls, resizes and clears, LRU_Cache returns what the wrapped (deterministic) function returns for those arguments, evaluates it exactly when the key is not among the retained ones, holds at most maxsize entries, retains the most recently used distinct keys and reports count, size and last_value accordingly. A cache created with maxsize = 0 fails at its first call (refuted).", "quantifier": "all histories of calls/resize/clear, all maxsize > 0, all key types and functions", "why_tests_cant": "Linked-list state machine over unbounded histories.", "anchors": ["treecorr/util.py: LRU_Cache"]}
{"id": "C30", "title": "k-means assignment gives each object its nearest centre", "statement": "kmeans_assign_patches labels each object with a centre whose distance exceeds the minimal distance by at most twice min_size (so exactly the nearest centre when min_size = 0), whatever tree was built and in whatever order the pruned searches write their labels. Direct assignment from patch_centers gives the nearest centre, the first one in case of a tie.", "quantifier": "all catalogs, trees, centre arrays", "why_tests_cant": "Pruning over all trees and centre configurations.", "anchors": ["src/KMeans.cpp: FindCellsInPatches, AssignPatches, QuickAssign"]}
{"id": "C31", "title": "Per-patch loading selects the same partition as direct assignment", "statement": "Using the same patch_centers, loading each patch separately (patch=i) selects exactly the objects for which centre i is at minimal distance. So every object belongs to some patch, and when no object is equidistant from its two nearest centres, to exactly one: the one given by assigning all patches at once, which is also the one kmeans_assign_patches gives with min_size = 0. With such a tie the object is loaded with both patches (C31_ties_refuted), because SelectPatch compares with < on both sides.", "quantifier": "all positions and centre arrays", "why_tests_cant": "Ties are measure zero in random tests.", "anchors": ["src/KMeans.cpp: QuickAssign, SelectPatch", "treecorr/catalog.py: _assign_patches, _get_patch_index"]}
{"id": "C32", "title": "Tree-based k-means initialisation fills every centre exactly once", "statement": "kmeans_initialize_centers(init='tree') writes each of the npatch centres exactly once, in order, for any tree and any draws in [0,1). When the tree is deep enough the centres are the mean positions of cells which partition the objects; with more top level cells than patches they are the positions of npatch different top level cells. If urand() can return exactly 1.0 the shuffle reads out of bounds (C32_draw_one_refuted).", "quantifier": "all trees, all npatch <= ntot, all random draws", "why_tests_cant": "Random splitting of counts over the tree.", "anchors": ["src/KMeans.cpp: InitializeCentersTree"]}
{"id": "C33", "title": "sample_pairs returns genuine distinct pairs in the range", "statement": "sample_pairs(n, min_sep, max_sep) on catalogs with positive weights and the Euclidean metric: every call has an outcome; with brute=True, and as long as no two groups of coincident objects have more than n pairs between them, it returns min(n, ntot) index pairs, none repeated, each a genuine pair in the range with its true separation, ntot being the number of all pairs in the range (all of them if ntot <= n); with bin_slop=0 and a range whose ends are bin edges, ntot is exactly the number of pairs in the range, and if ntot <= n exactly those pairs are returned. Without these conditions the claim is false: a pair (0,0) with separation 0 that is not in the range can be returned (C33_refuted: a cell pair with more than n pairs met when 0 < k < n), and with a maximum separation inside a bin pairs beyond it are returned (C33_unaligned_refuted).", "quantifier": "all catalogs, all n, all random draws", "why_tests_cant": "Reservoir logic over all event sequences and random draws.", "anchors": ["src/Corr2.cpp: Sampler::finishProcess, SelectRandomFrom", "treecorr/corr2base.py: sample_pairs"]}
{"id": "C34", "title": "Random selection without replacement is valid", "statement": "The internal selection of n items out of m >= n returns n distinct values in [0,m) for every random stream on which it terminates; it terminates on every stream of at least n numbers whose draws hit n different items.", "quantifier": "all m >= n, all random streams", "why_tests_cant": "All random streams.", "anchors": ["src/Corr2.cpp: SelectRandomFrom"]}
{"id": "C35", "title": "Variance combined over catalogs equals the variance of the combined catalog", "statement": "For any list of catalogs (each with non-zero sumw, weights trivial or not) calculateVarK equals sum w^2 (k-mean)^2 / sum w over all rows of all catalogs, with mean = sum wk / sum w; this is the vark of the catalog made of all the rows. calculateVarZ/V/G/T/Q is the mean of this over the two components.", "quantifier": "all lists of catalogs with any weights and values (non-zero total weight)", "why_tests_cant": "Algebraic identity over all inputs.", "anchors": ["treecorr/catalog.py: _calculate_weighted_var, _compute_var_multi_cat"]}
{"id": "C36", "title": "Catalog weights honour flags, NaNs and zero weights", "statement": "After construction without wpos, the rows kept (keep_zero_weight=False) are exactly those that are not flagged, have no NaN in any column and have a non-zero weight; they keep their values, weights and order, sumw is the sum of their weights, and construction raises exactly if there are weights and they sum to 0. With wpos, the rows kept are exactly the unflagged ones whose wpos is a non-zero number; a NaN in another column is replaced by 0 and only zeroes w (so 'rows with NaN are skipped' is refuted in that case, C36_nan_wpos_refuted). With keep_zero_weight=True every row is kept and the bad ones have weight 0.", "quantifier": "all columns, flags, weights, NaN positions", "why_tests_cant": "All input columns.", "anchors": ["treecorr/catalog.py: _finish_input, checkForNaN, select"]}
{"id": "C37", "title": "get_patches partitions the catalog", "statement": "The patch catalogs returned by get_patches contain each row exactly once, in the patch given by its patch number, with unchanged relative order.", "quantifier": "all catalogs and patch columns", "why_tests_cant": "All patch labelings.", "anchors": ["treecorr/catalog.py: get_patches, select, _select_patch"]}
{"id": "C38", "title": "Projection of spin-s values: meaning and rotation invariance", "statement": "For flat coordinates everything a pair adds to the complex arrays (NG, KG, xi+, xi-, and the same for spins 0, 1, 3, 4) is unchanged when the whole catalog (positions and values) is rotated and translated. The projection multiplies a spin-s value by exp(-i s a), with a the direction of the pair; for every coordinate system it has unit modulus unless the direction is undefined.", "quantifier": "all positions, shears and rotation angles", "why_tests_cant": "Continuous symmetry group.", "anchors": ["include/ProjectHelper.h: ProjectHelper<Flat>::Project", "src/Corr2.cpp: DirectHelper2"]}
{"id": "C39", "title": "A skipped pair of patches really has no pair in range", "statement": "When a patch pair is skipped because it is trivially zero (or the C++ early exit triggers) no pair of objects between the two has separation in range.", "quantifier": "all patch catalogs, all metrics with conservative pruning", "why_tests_cant": "Skipping is silent; a wrong skip loses pairs only for special geometries.", "anchors": ["src/Corr2.cpp: triviallyZero, process (cross)", "treecorr/corr2base.py: _trivially_zero, _single_process12"]}
{"id": "C40", "title": "patch_method='local' counts the same pairs as 'global'", "statement": "With patch_method='local' the expanded patch built around each patch contains every object within max_sep of any object of the patch, so totals equal those of the global method.", "quantifier": "all catalogs and patches, all bin types and metrics for which it is allowed", "why_tests_cant": "Corner pairs and wrap-around pairs are rarely tested.", "anchors": ["treecorr/corr2base.py: _make_expanded_patch, _process_all_auto, _process_all_cross"]}
{"id": "C41", "title": "min_rpar/max_rpar select the pairs with rpar in range, up to Delta^2/D", "statement": "With min_rpar/max_rpar, metric Euclidean and bin_slop=0: if all positions lie beyond a plane at distance D from the observer and any two are at most Delta apart, every pair is either counted in the bin of its separation with its own line-of-sight separation inside the limits widened by Delta^2/D, or dropped and out of range or outside the limits narrowed by Delta^2/D; so when no pair is within Delta^2/D of a limit the arrays grow by exactly the sums over the pairs in range (auto: with limits symmetric about 0). The unconditional claim is false: cells are accepted or rejected as if their size bounded the change of the line-of-sight separation, which fails for wide angles (C41_euclid_refuted, also with brute=True) and for Rlens, where the size is projected first (C41_rlens_refuted); an auto-correlation with asymmetric limits depends on the orientation of the catalog (C41_auto_orientation_refuted).", "quantifier": "all 3-d catalogs with positive weights, all trees, all limits, all D and Delta", "why_tests_cant": "The pruning uses approximate bounds; violations are rare geometric events.", "anchors": ["include/Metric.h: ParHelper", "src/Corr2.cpp: process11"]}
{"id": "C42", "title": "npairs counts every positive-weight pair and no out-of-bin pair; zero-weight pairs may be missed", "statement": "With bin_slop=0 and non-negative weights, each bin's npairs lies between the number of in-bin pairs whose weights are both positive and the number of all in-bin pairs. The documented stronger claim (npairs includes all pairs where one or both objects have w=0) is false: a cell whose total weight is 0 is skipped, so its pairs are not counted (C42_refuted).", "quantifier": "all catalogs built with keep_zero_weight=True", "why_tests_cant": "Depends on how the zero-weight objects are distributed over tree cells.", "anchors": ["src/Corr2.cpp: process11, process2 (getW()==0)", "treecorr/nncorrelation.py: class doc"]}
{"id": "C43", "title": "meanr and meanlogr are weighted means of separations in the bin", "statement": "For non-negative weights, after finalize the meanr of every bin lies inside that bin's edges, and meanlogr lies between the logarithms of the edges (any metric, any bin_slop, any schedule); empty bins report the nominal centre, which is also inside.  left_edges/right_edges are the edges used for binning.", "quantifier": "all catalogs with non-negative weights, Log and Linear binning, all metrics and slops", "why_tests_cant": "Convexity over all inputs.", "anchors": ["src/Corr2.cpp: finishProcess, directProcess11", "include/BinType.h: singleBin", "treecorr/nncorrelation.py: finalize"]}
{"id": "C44", "title": "Separation units rescale results consistently", "statement": "Giving the same physical binning in different sep_units yields the same parameters for the C++ code: for Log binning all of them; for Linear the edges, bin size and number of bins.  (For Linear the slop b is not converted, so with bin_slop>0 the tree decisions do depend on the units: C44_linear_slop_refuted.)", "quantifier": "all units, binnings and bin_slop", "why_tests_cant": "Unit conversions over all parameter values.", "anchors": ["treecorr/corr2base.py: __init__ (b, _bin_size), builder, _get_minmax_size"]}
{"id": "C45", "title": "min_size/max_size chosen for the tree never break the bin_slop guarantee", "statement": "The min_size at which leaves are grouped adds at most the documented slop: grouping objects closer than min_size moves a pair's separation by no more than bin_slop*bin_size at any separation >= min_sep.", "quantifier": "all binnings, all catalogs", "why_tests_cant": "Inequality over all parameters.", "anchors": ["treecorr/corr2base.py: _get_minmax_size", "src/Cell.cpp: BuildCell"]}
{"id": "C46", "title": "Selection of list-valued config items is positional and total", "statement": "get_from_list(config,key,num) returns the num-th entry for list values, the single value for scalars, and the default when missing or None; negative numbers count from the end and numbers beyond either end raise.", "quantifier": "all config values and indices", "why_tests_cant": "All inputs.", "anchors": ["treecorr/config.py: get_from_list, get"]}
{"id": "C47", "title": "KK/NK scalar correlations with bin_slop=0 equal the direct sum", "statement": "For scalar fields the accumulated xi numerator of each bin equals the sum of w1 k1 w2 k2 (KK) or w1 w2 k2 (NK) over the pairs in that bin.", "quantifier": "all catalogs, all trees", "why_tests_cant": "As C01.", "anchors": ["src/Corr2.cpp: DirectHelper2, finishProcess", "include/Cell.h: CellData<KData>"]}
{"id": "C48", "title": "Result of an accumulation is unaffected by object order and duplicates of the tree", "statement": "Permuting the rows of the input catalog leaves the npairs, weight and scalar xi arrays unchanged at bin_slop=0.", "quantifier": "all permutations of all catalogs", "why_tests_cant": "All permutations.", "anchors": ["src/Corr2.cpp: process", "src/Cell.cpp: SplitData"]}
{"id": "C49", "title": "The number and size of the top-level cells of a Field are bounded by max_top and max_size", "statement": "BuildCells/SetupTopLevelCells produce at most 2^max_top top-level cells; every top-level cell reached before max_top levels (and after min_top levels) has size at most max_size or is a single undividable group.", "quantifier": "all catalogs, all split choices, all min_top/max_top/max_size", "why_tests_cant": "Depends on the recursive splitting of arbitrary point sets.", "anchors": ["src/Field.cpp: SetupTopLevelCells", "treecorr/field.py: _determine_top"]}
{"id": "C50", "title": "xi recomputed from all patch pairs equals calculateXi", "statement": "NNCorrelation._calculate_xi_from_pairs applied to all stored pairs gives the same xi as calculateXi on the summed DD, RR, DR, RD, for RR with or without patches and for DR/RD with patched or unpatched randoms, whenever the randoms have results for stored DD pairs only and the tots are non-zero.", "quantifier": "all result dictionaries and all combinations of DR/RD", "why_tests_cant": "Several code paths pair up dictionaries of different shapes; equality must hold for every pattern.", "anchors": ["treecorr/nncorrelation.py: _calculate_xi_from_pairs, calculateXi"]}
{"id": "C51", "title": "The total arrays are the sum of the stored patch-pair results", "statement": "After process with patches (serial or MPI, any metric, bin_slop and split) every array of the correlation equals the sum of the entries of its results dict, and so does tot for NN. For every class but NN this stays true however many calls are accumulated with initialize=False; for NN it does not: a later call in which the patches (i,j) have no pairs in range replaces the stored result by one with only tot, so counts and tot of the earlier call are lost from the dict (C51_repeated_refuted).", "quantifier": "all catalogs, patches, configurations, traversals, rank counts, and sequences of calls", "why_tests_cant": "Some pairs are not stored, some are stored with only tot; the bookkeeping must balance in every combination.", "anchors": ["treecorr/corr2base.py: _process_all_auto, _process_all_cross, _single_process12", "treecorr/nncorrelation.py: _add_tot"]}
{"id": "C52", "title": "key = value lines and .params files are read as written", "statement": "parse_variable stores under the stripped key the single value, or the list of values, that the right-hand side denotes (words separated by white space, or a bracketed comma-separated list), ignoring an optional # comment; a line without '=' or with an unclosed bracket is an error; and a .params file yields the dictionary of its lines applied in order, skipping blank and comment lines. A key with an empty right-hand side raises (refuted as 'value is the empty string').", "quantifier": "all keys, values, spacings, comments and files", "why_tests_cant": "String grammar with unbounded inputs; tests use a handful of lines.", "anchors": ["treecorr/config.py: parse_variable, _read_params_file"]}
{"id": "C53", "title": "Catalog.select gives the catalog of the selected rows", "statement": "Every constructed catalog is free of NaN, and points with wpos=0 have w=0. After cat.select(indx) the rows (all columns) are those of a catalog built from the selected rows, in the order of indx. The cached sumw is not updated: it remains the total of the original catalog (C53_select_sumw_refuted).", "quantifier": "all catalogs, all index arrays", "why_tests_cant": "State left over in an attribute that tests of select do not look at.", "anchors": ["treecorr/catalog.py: select, _finish_input, sumw"]}
{"id": "C54", "title": "Catalog.combine keeps all rows of all catalogs", "statement": "combine(cat_list) has all rows of all the catalogs, in order, and the total of their weights, if the first catalog has a row of zero weight or no catalog has one. Otherwise the zero-weight rows of the later catalogs are dropped (C54_combine_refuted), so the result depends on the order of the list.", "quantifier": "all lists of catalogs with the same columns and non-zero total weight", "why_tests_cant": "Depends on which catalog of the list has zero-weight rows.", "anchors": ["treecorr/catalog.py: combine"]}
{"id": "C55", "title": "first_row, last_row, every_nth select the documented rows", "statement": "Row i of the catalog is input row first_row-1 + i*every_nth as long as this is below last_row; there are no other rows.", "quantifier": "all columns, first_row, last_row, every_nth", "why_tests_cant": "Combination of three parameters and any length.", "anchors": ["treecorr/catalog.py: makeArray"]}
{"id": "C56", "title": "A k-means iteration moves each centre to the mean of the objects nearest to it and never increases the inertia", "statement": "One iteration of the standard algorithm groups all objects by nearest centre (within twice min_size) and replaces each centre by the weighted mean position of its group (an empty group: the origin). Hence with min_size = 0 the total weighted squared distance to the nearest centre does not increase in any iteration, nor over kmeans_refine_centers as a whole for any max_iter and tol (flat and 3d coordinates, non-negative weights).", "quantifier": "all catalogs, trees, starting centres, tolerances, iteration numbers", "why_tests_cant": "The pruned tree pass depends on the tree, the order of threads and the centres; tests compare only final inertia.", "anchors": ["src/KMeans.cpp: KMeansRun1, UpdateCenters, FindCellsInPatches", "treecorr/field.py: kmeans_refine_centers"]}
{"id": "C57", "title": "When patches can end up without objects", "statement": "The documentation of run_kmeans says that the standard algorithm can never produce patches with no points. This is false of the algorithm: with 5 points in the plane and npatch = 3, every execution from init='tree' (for certain draws) with any max_iter >= 1 leaves patch 0 without objects and puts its centre at the origin (C57_never_empty_refuted). What holds: a centre is moved to the origin only if no object was nearest to it.", "quantifier": "all executions of the example; all catalogs for the positive part", "why_tests_cant": "Needs an adversarial configuration and all tree-building and thread orders.", "anchors": ["treecorr/field.py: run_kmeans docstring", "src/KMeans.cpp: UpdateCenters::finalize"]}
{"id": "C58", "title": "Random and k-means++ starting centres are positions of different objects", "statement": "For a catalog with distinct positions and npatch <= ntot: init='random' gives the positions of npatch different objects for all draws; init='kmeans++' does so whenever it gives a result, for all draws in [0,1). k-means++ ends without the LeafAlreadyUsed exception if no object is at the origin and no internal cell has its centre exactly at the origin or at an object. With an object at the origin the exception can occur (C58_kmpp_origin_refuted), since the centres which are not set yet are taken as used positions (the recursion is given ncenters instead of i).", "quantifier": "all catalogs with distinct positions, trees, npatch, draws", "why_tests_cant": "Random choices over all trees; the failing case needs an object exactly at the origin.", "anchors": ["src/KMeans.cpp: InitializeCentersRand, InitializeCentersKMPP", "treecorr/field.py: kmeans_initialize_centers"]}
{"id": "C59", "title": "Complex correlation functions equal the brute-force sums when angle_slop = 0", "statement": "For flat coordinates and the Euclidean metric: with angle_slop = 0 (for any bin_slop and without any assumption about bin edges) or with brute=True, every bin of the NG, KG and GG arrays (real and imaginary parts; also spins 1, 3, 4) grows by exactly the sum over pairs of the tangential/cross components defined with polar angles; likewise xi+, xi- and Im xi- of a GG auto-correlation. Counts, weights, scalar correlations, meanr and meanlogr are then exact too.", "quantifier": "all flat catalogs with nonnegative weights, all trees, all thread schedules, all valid binnings", "why_tests_cant": "Holds for every tree and all real positions; angle_slop=0 has to make every bin_slop harmless.", "anchors": ["src/Corr2.cpp: process11, DirectHelper2, finishProcess", "include/BinType.h: singleBin", "include/ProjectHelper.h: ProjectHelper<Flat>"]}
{"id": "C60", "title": "Which parts of a shear auto-correlation are well defined", "statement": "Rotating a catalog (positions and shears) does not change xi+, xi- and Im xi- of the auto-correlation (angle_slop = 0 or brute). It can change Im xi+: that part is antisymmetric under exchange of the two objects and the tree decides which object of a pair comes first (C60_xip_im_refuted: a catalog of two objects and its image under rotation by 180 degrees, with brute=True, give -1 and +1).", "quantifier": "all flat catalogs and rotation angles; a concrete catalog for the refutation", "why_tests_cant": "Continuous symmetry; depends on the order in which the tree visits the pair.", "anchors": ["src/Corr2.cpp: process2, DirectHelper2<5>", "include/ProjectHelper.h: ProjectHelper<Flat>"]}
{"id": "C61", "title": "Shear correlations on the sphere use great-circle components and are rotation invariant", "statement": "For catalogs on the celestial sphere, and for 3-d catalogs, away from the poles, with the brute force option or angle_slop=0 and the Euclidean metric, every sum of a shear correlation equals the brute-force sum over pairs in which each object's shear is referred to the great circle joining the two objects, measured in the local (west, north) frame at that object; objects in the same or opposite directions contribute zero. For fields of every spin, turning the whole sky by any rotation, with the components re-expressed in the new local frames, changes no cross-correlation sum: the answer does not depend on the coordinate system.", "quantifier": "all catalogs of off-pole, non-coincident, non-antipodal positions on the unit sphere, all field values, all spins, all rotations of space, all traversal orders and tree shapes", "why_tests_cant": "Tests compare a few catalogs with sky rotations near one declination; the claim is an identity between the ray-free formula of the code and the geometric definition for all positions.", "anchors": ["include/ProjectHelper.h", "src/Corr2.cpp", "treecorr/gg_correlation.py"]}
{"id": "C62", "title": "Parallel transport when a cell averages a spin field on the sphere", "statement": "When a cell on the sphere averages a spin-s field, each object's value is multiplied by a phase and summed. Let t be the angle by which the local frame of the object is turned, relative to the local frame of the cell centre, after parallel transport along the great circle to the centre. For spin 0 the sum is the plain weighted sum; for spin s the code multiplies by the conjugate exp(-ist) of the phase exp(ist) that represents the same field in the centre's frame. So the documented intention (average in a common frame) is refuted for shear on the sphere (C62_shear_refuted), and for 3-d positions the phase even depends on the unit of distance, because the centre is used without normalising it (C62_units_refuted). With angle_slop = 0 or the brute force option no such average is used (C61).", "quantifier": "all lists of objects off the poles, all centres, all spins", "why_tests_cant": "The effect is of second order in the cell size away from the poles and is hidden below test tolerances; it needs the geometric definition of transport to be noticed.", "anchors": ["src/Cell.cpp"]}
{"id": "C63", "title": "What angle_slop bounds", "statement": "With the Euclidean metric (any coordinates), whenever two cells are accumulated as a pair, then for every object of the first and every object of the second the separation vector d of the two objects and the vector c between the cell centres, which defines the projection angle, satisfy |d - c| <= angle_slop |c| + 2 min_size <= 2 angle_slop |c|; so the sine of the angle between the two directions is at most 2 angle_slop, and at most angle_slop when min_size = 0. The documented bound, that the angle is at most angle_slop radians, is refuted (C63_radians_refuted: the angle can be arcsin(angle_slop)).", "quantifier": "all catalogs, all trees, all bin parameters with Log or Linear binning, all traversal orders, all pairs of objects of every accumulated pair of cells", "why_tests_cant": "Tests of angle_slop compare summed shears with a tolerance; they never look at the worst pair of objects inside accumulated cells.", "anchors": ["include/BinType.h", "src/Corr2.cpp", "treecorr/corr2base.py", "docs/binning.rst"]}
{"id": "C64", "title": "bin_type='TwoD': pairs are counted in the pixel of their separation vector", "statement": "For bin_type='TwoD' (flat coordinates, Euclidean metric): with brute force, or with bin_slop=0 and the default min_sep=0 and no separation exactly on the lower border of the square, a cross-correlation adds to every pixel (i,j), k=j*n+i, of npairs, weight and the NK/KK sums exactly the contributions of the pairs of distinct positions whose separation vector (dx,dy) lies in the pixel and strictly inside the square of half side max_sep. An auto-correlation counts every unordered pair twice, once at (dx,dy) and once at (-dx,-dy), when no separation lies on a line of the grid. For any bin_slop a counted pair is within bin_slop*bin_size of its pixel and a rejected pair is outside of the square up to the same margin. Refuted: exactness for min_sep>0 (a closer pair is counted), for auto-correlations with separations on the grid lines, and meanr, which is left at 0 for pairs of cells that fall inside one pixel.", "quantifier": "all catalogs, weights, trees, thread schedules, pixel counts and ranges", "why_tests_cant": "Tests compare with a brute-force image for a few catalogs and only check meanr loosely.", "anchors": ["include/BinType.h: TwoD (253-378)", "src/Corr2.cpp: process11, directProcess11", "treecorr/corr2base.py: 1374"]}
{"id": "C65", "title": "bin_type='LogRUV', bin_slop=0: the three-point auto-correlation counts every triangle once, in its bin", "statement": "For bin_type='LogRUV' (Euclidean metric; flat, 3-d and spherical coordinates) with bin_slop=0 and min_v=0, process_auto adds to every place (r,u,v) of ntri, weight, meand1..meanlogd3, meanu, meanv and the KKK zeta exactly the sum over the triples of different rows of the contribution of the triangle with sides d1>=d2>=d3, r=d2, u=d3/d2, v=+-(d1-d2)/d3 (positive when the points are counter-clockwise), provided that no triangle has d1=d2; without that proviso the sum over both signs of v is exact (a run always terminates and exists for every slop). Triangles with u=1 or v=1 are not counted (the ranges are half open also for max_u=1, max_v=1). Refuted for min_v>0: triangles inside the range are then lost without any slop (C65_minv_refuted).", "quantifier": "all catalogs, weights, trees (split methods, top levels), thread schedules, bin numbers and ranges", "why_tests_cant": "Tests compare a few catalogs with brute force; the stopping rules on cell triples (stop111) depend on the geometry of cells and fail only for special configurations, e.g. for min_v>0.", "anchors": ["src/Corr3.cpp: process3, process12, process111, process111Sorted, finishProcess", "include/BinType.h: BinTypeHelper<LogRUV>", "treecorr/corr3base.py: process_auto"]}
{"id": "C66", "title": "bin_type='LogRUV', bin_slop=0: three-point cross-correlations are exact for every value of 'ordered'", "statement": "Under the hypotheses of C65, process_cross12 (ordered True/False) and process_cross (ordered True, 1, False) add to every place exactly the sum over the allowed assignments of the objects of the two or three catalogs to the triangle vertices (ordered=True: vertex i from catalog i; ordered=1: vertex 1 from catalog 1; False: any). The ordered=False result is the sum of the ordered=True results over the six orders of the catalogs. Ordered results need no hypothesis on equal sides. Refuted: with d1=d2 the unordered result depends on the order of the catalogs (the sign of v is decided by the order in which the cells are visited).", "quantifier": "all catalogs, weights, trees, thread schedules, bin numbers and ranges, all values of ordered", "why_tests_cant": "Tests compare a few catalogs with brute force; ties and permutations of the catalogs are not explored.", "anchors": ["src/Corr3.cpp: process12, process111", "include/BinType.h: BinTypeHelper<LogRUV>", "treecorr/corr3base.py: _process_cross12, process_cross"]}
{"id": "C67", "title": "Three-point sums are invariant under rotations and shifts; a reflection exchanges v and -v", "statement": "Under the hypotheses of C65, moving a flat catalog by a rotation and a shift, or a catalog on the sky or in space by a rotation about the origin, leaves every array unchanged; reflecting a flat catalog exchanges the places of v and -v of all arrays other than meanv.", "quantifier": "all catalogs, motions, trees, thread schedules, bin numbers and ranges", "why_tests_cant": "The tree built from the moved catalog is a different one; tests use a fixed orientation.", "anchors": ["src/Corr3.cpp: process111", "include/Metric.h: CCW", "include/BinType.h: BinTypeHelper<LogRUV>::isTriangleInRange"]}
{"id": "C68", "title": "Three-point processing by patches gives the sums of the unpatched catalog", "statement": "For the three-point classes with bin_type='LogRUV', metric 'Euclidean', bin_slop=0 and min_v=0, processing catalogs that are split into patches with patch_method='global' gives in every bin, for every accumulated array, exactly the sums over triangles of the unpatched catalogs (and so what process computes without patches): for auto-correlations, for two catalogs (ordered or not) and for three catalogs (ordered=True, 1 or False), serially, and under MPI with any number of processes (corr3base.py is_my_job assigns every call to exactly one process). For unordered processing no triangle may have two equal sides. The NNN total is W^3/6 for an auto-correlation; for two and three catalogs it is W1 W2^2/2 and W1 W2 W3 if no call with force_write is skipped. A call is skipped by _trivially_zero only if no triangle with one corner in each patch belongs to a bin. For metric='Periodic' the claim fails: patches at opposite sides of the box are skipped (C68_periodic_refuted).", "quantifier": "all catalogs and splits into patches, weights, bins, arrays, numbers of MPI processes and field trees", "why_tests_cant": "The number of splits, of trees and of process counts is unbounded, and a triangle lost at one combination of patches shows only for particular positions.", "anchors": ["treecorr/corr3base.py:1110-1545", "treecorr/nnncorrelation.py:240-363", "treecorr/kkkcorrelation.py:276-300", "treecorr/catalog.py:1289-1300"]}
{"id": "C69", "title": "Three-point patch_method='local'", "statement": "For the three-point classes with bin_type='LogRUV', metric 'Euclidean', bin_slop=0, min_v=0 and flat or spherical coordinates, patch_method='local' gives in every bin exactly the sums over the triangles of the catalogs, for auto-correlations, two catalogs (ordered or not) and three catalogs (all values of ordered), and so the same arrays as patch_method='global' when no triangle has two equal sides. The NNN total differs: with patch_method='local' an auto-correlation has tot = W^3/2, three times the total of the global method and of process without patches, so that calculateZeta with one input made by each method is wrong (C69_tot_refuted: -2/3 instead of 0).", "quantifier": "all catalogs and splits into nonempty patches, weights, bins, arrays and field trees", "why_tests_cant": "It is a statement for all positions of the objects relative to the patches; the test suite compares a few random catalogs and never mixes the totals.", "anchors": ["treecorr/corr3base.py:1205-1220", "treecorr/corr3base.py:1354-1378", "treecorr/corr3base.py:1470-1509", "treecorr/corr2base.py:730-782", "treecorr/nnncorrelation.py:240-363"]}
{"id": "C70", "title": "Stored three-point results: total and jackknife", "statement": "After a three-point auto-correlation by patches (LogRUV, Euclidean, bin_slop=0, min_v=0, no triangle with two equal sides) the results dict has one entry per key, its entries sum to the arrays (and the NNN total) of the correlation, and the sum over the entries whose key does not contain patch i, which is the i-th jackknife sample, equals the arrays of the correlation of the catalog without patch i, with total W_i^3/6. For every class but NNN the entries still sum to the arrays after any number of process calls with initialize=False (for NNN they do not: C70_repeated_refuted). calculateZeta does not change when all counts and the total of any one of rrr, drr, rdd are multiplied by a constant, and is 0 where the data have the relative counts of the randoms.", "quantifier": "all catalogs and splits into patches, patch numbers i, weights, bins, arrays and field trees", "why_tests_cant": "The equality holds for every catalog and every left-out patch; tests compare a handful of patches within a tolerance.", "anchors": ["treecorr/corr3base.py:1110-1262", "treecorr/nnncorrelation.py:324-470", "treecorr/corr3base.py:2267-2290"]}
{"id": "C71", "title": "LogMultipole auto-correlation: counts and monopole", "statement": "For a three-point auto-correlation with bin_type='LogMultipole' (NNN or KKK, algorithm='multipole', Euclidean or Periodic metric) that is exact (bin_slop=0, angle_slop=0 or brute force), ntri of entry (k2, k3, n=0) increases by the number of ordered triples of different rows (p1, p2, p3) with d2 = d(p1,p3) in bin k2 and d3 = d(p1,p2) in bin k3; if no two rows are at the same position the n=0 weight and zeta increase by the sums of w1 w2 w3 and of the products of w*kappa over these triples. With rows at the same position ntri still counts them but the weight leaves out the triangles with points 2 and 3 on such rows (C71_coincident_refuted).", "quantifier": "all catalogs, weights, kappa, Log binnings, numbers of bins and max_n, split methods, top-level settings, cell trees, thread schedules", "why_tests_cant": "The multipole algorithm drops, splits and recombines cells and finishes ranges of bins early; the equality with the triple sum holds for all catalogs and trees, tests compare a few sizes within a tolerance.", "anchors": ["src/Corr3.cpp:816-1493", "src/Corr3.cpp:1526-1797", "include/MultipoleScratch.h:21-200", "treecorr/corr3base.py:1547-1606"]}
{"id": "C72", "title": "LogMultipole auto-correlation: sides and all multipoles", "statement": "In the same setting with angle_slop=0 or brute force and distinct positions, meand2, meanlogd2, meand3 and meanlogd3 of entry (k2, k3) increase by the weighted sums of d2, log d2, d3, log d3 over the triples of C71; for flat coordinates and the Euclidean metric, weight and zeta of entry (k2, k3, n) for -max_n <= n <= max_n increase by the sums of the weight and of the product of w*kappa times exp(i n phi), phi being the angle at p1 from p2 to p3.", "quantifier": "all catalogs, weights, Log binnings, n in -max_n..max_n, trees, schedules, choices of polar angles", "why_tests_cant": "The phases come from powers of unit vectors multiplied as complex numbers and from symmetries in k2, k3 and n; the identity is an algebraic fact about all of them.", "anchors": ["src/Corr3.cpp:1344-1420", "src/Corr3.cpp:1526-1604", "src/Corr3.cpp:1697-1797", "include/ProjectHelper.h:151-153"]}
{"id": "C73", "title": "LogMultipole cross-correlations", "statement": "The same for LogMultipole cross-correlations of two and of three catalogs: with ordered=True point i comes from catalog i, with ordered=1 point 1 comes from the first catalog and the others in both orders, with ordered=False every assignment counts; ntri, n=0 weight and zeta, meand2, meanlogd2, meand3 and (flat Euclidean) all multipoles increase by the sums over these triangles. meanlogd3 does so for ordered=True only: for ordered=1 and False the code combines bin k3 with bin k3 instead of k2 (C73_logd3_refuted). With metric='Periodic' the phases are wrong for separations across the border: their modulus is not 1 (C73_periodic_refuted).", "quantifier": "all two or three catalogs, weights, values of ordered, Log binnings, n, trees, schedules", "why_tests_cant": "A wrong index in one of 18 accumulation lines shows only in one averaged column and only when two bins differ; the theorem covers every column.", "anchors": ["src/Corr3.cpp:869-995", "src/Corr3.cpp:1428-1493", "src/Corr3.cpp:1607-1655", "src/Corr3.cpp:1799-1853", "treecorr/corr3base.py:1577-1658"]}
{"id": "C74", "title": "The multipole traversal finishes", "statement": "For every catalog and every slop the multipole recursion (metrics Euclidean, Arc on the sphere, Periodic) ends and never splits a cell that has no children: each step either removes a cell from the lists, replaces a cell by its children, or is followed by such a step.", "quantifier": "all catalogs, field trees (brute or not), binnings, bin_slop and angle_slop", "why_tests_cant": "Non-termination or a null pointer would need a particular constellation of sizes and slops; no finite set of runs excludes it.", "anchors": ["src/Corr3.cpp:997-1338"]}
{"id": "C75", "title": "Compensated count-value estimate and its jackknife", "statement": "For NK and the NZ-type classes, calculateXi(rk) sets xi (both parts) to the mean around the lenses minus the mean around the randoms, and changes none of the summed arrays. With patches, the estimate recomputed from all stored pairs of patches equals that xi, and the i-th jackknife sample of xi is the mean around the lenses without patch i minus the mean around the randoms without patch i, whether the randoms have the same patches or (for split sources) none, and even if the randoms have patch pairs which the lenses lack. From the catalogs (NK, Euclidean, bin_slop=0): it is the difference of the brute-force means over the remaining rows. varxi is var/weight + var_r/weight_r without patches, and with var_method='jackknife' it is (1-1/n) times the sum of squared deviations of these n samples. Outside this: resampled xi_im is never compensated (C75_imag_refuted), the results no longer sum to npairs (C75_dummy_refuted), raw_varxi read afterwards is the compensated variance (C75_raw_varxi_refuted), with patches and var_method='shot' the noise of the randoms is missing (C75_shot_refuted), calculateXi() without rk makes xi raw but leaves cov compensated (C75_reset_refuted), 'sample' rows with unsplit randoms treat patch 0 differently (C75_sample_refuted), and unsplit randoms with unsplit sources make the covariance fail (C75_unsplit_refuted).", "quantifier": "all result dicts, arrays, patch numbers and numbers of patches, bins; all catalogs for the brute-force form", "why_tests_cant": "The identity between recomputed and direct estimates for every patch layout, missing pairs included, is a statement about sums of arbitrary stored values; tests compare a few catalogs within a tolerance and never look at xi_im or raw_varxi after compensation.", "anchors": ["treecorr/nkcorrelation.py:138-262", "treecorr/nzcorrelation.py:60-161", "treecorr/corr2base.py:605-630", "treecorr/corr2base.py:2007-2195"]}
{"id": "C76", "title": "Write and read round trip of a two-point correlation", "statement": "from_file after write gives back the correlation. For FITS and HDF, xi (real and imaginary part), meanr, meanlogr, weight, npairs and varxi are the same numbers in every bin; for ASCII they are the numbers rounded to the precision. With write_patch_results=True, npatch1, npatch2 and the results (same keys, every array) come back too (16 digits in ASCII), so that the jackknife covariance of an uncompensated correlation is the same as before; with write_cov=True the covariance matrix comes back (for ASCII: if the results are written as well and there are at least 2 bins). Refuted: a compensated correlation does not come back (raw_xi is the compensated one, the covariance is uncompensated, calculateXi(rk) subtracts twice); the shot-noise cov of what was read is 0; an ASCII file with write_cov but without write_patch_results, or with one bin, cannot be read; after a second process() a jackknife correlation cannot be written with its results; read() into a used object keeps the old cov.", "quantifier": "for all objects (any values, any results with distinct keys, any patch numbers), both kinds of file, every rounding function, all combinations of write_patch_results and write_cov", "why_tests_cant": "Tests write and read back a few files; they do not cover ASCII with write_cov alone, one bin, compensated objects, or a second process call, and cannot cover all values and all sets of results.", "anchors": ["treecorr/corr2base.py:1692-1791", "treecorr/nzcorrelation.py:163-190", "treecorr/nkcorrelation.py:260-335", "treecorr/reader.py:126-178", "treecorr/writer.py:50-160"]}
{"id": "C77", "title": "calculateZeta of three-point counts: estimate, jackknife rows, variance, bootstrap triples", "statement": "For LogRUV counts with bin_slop=0 (no ties, non-negative weights), data and randoms in the same patches and the calls ddd.process(D), rrr.process(R), drr.process(D,R,ordered=False), rdd.process(R,D,ordered=False): ddd.calculateZeta(rrr=rrr) returns (DDD-RRR)/RRR and calculateZeta(rrr=rrr,drr=drr,rdd=rdd) returns (DDD-RDD+DRR-RRR)/RRR for brute-force weighted counts, each divided by the weight of all its triples of rows; jackknife row i is the same formula for the catalogs without patch i, and varzeta is the jackknife variance of those rows. With randoms without patches, row i is the same formula with all randoms and the data without patch i, except that the DDD term is multiplied by f^2, with f the fraction of the data's weight that is left (C77_unpatched). In a bootstrap row a stored triple occurs as often as its different patch numbers can be drawn from the resampled patches (product of multiplicities); in a marked-bootstrap row as often as its first patch was drawn. Refuted: with randoms without patches the rows of the compensated estimator do not scatter about the estimate, as RDD and DRR are scaled by the same area fraction: data identical to randoms give zeta=0, simple rows 0, but every compensated row is -1 (C77_unpatched_refuted). The call succeeds exactly when the totals of all random counts are nonzero and, if ddd has patch results, the numbers of patches agree (equal, or 1 for randoms without patches) and drr, rdd have patch results too (C77_errors).", "quantifier": "all data and random catalogs, patch assignments, bins k, removed patches i, lists of resampled patches; all orders of processing and tree shapes allowed by the model", "why_tests_cant": "tests compare jackknife variances of calculateZeta with loose tolerances to the scatter of a few simulations; no test compares a row with the counts of the catalogs without that patch, nor runs the compensated estimator with unpatched randoms against an independent value", "anchors": ["treecorr/nnncorrelation.py:485-648", "treecorr/corr3base.py:2274-2420", "treecorr/corr3base.py:1222-1262", "treecorr/corr3base.py:1379-1400"]}
{"id": "C78", "title": "calculateZeta compared with the Szapudi-Szalay estimator", "statement": "Let delta be the data rows weighted by w/W_D together with the random rows weighted by -w/W_R. The Szapudi-Szalay estimate (sum over triangles of one shape of the product of three deltas, divided by the same sum for the normalised randoms) is (DDD - 3 RDD + 3 DRR - RRR)/RRR in normalised counts (C78_szapudi). calculateZeta(rrr,drr,rdd) returns (DDD - RDD + DRR - RRR)/RRR of the same normalised counts, since rdd.tot and drr.tot already count all three positions (C78_estimate); it therefore differs from Szapudi-Szalay by 2(RDD-DRR)/RRR, exactly two thirds of what the simple estimate (DDD-RRR)/RRR has in excess (C78_excess, C78_third). Refuted: the documented note that the factor 3 is already contained in RDD and DRR - a catalog with delta-product sum 0 gives zeta=-1/6 (C78_szapudi_refuted); and that drr.process(data,rand) counts the data point at all three vertices: with the default ordered=True a triangle is counted only with the data point at vertex 1 (C78_ordered_refuted).", "quantifier": "all data and random catalogs with non-zero total weight, all bins with random triangles; LogRUV with bin_slop=0 for the link to process()", "why_tests_cant": "the tests check zeta of one clustered profile with rtol 0.1, where zeta dominates the two-point terms; the identity holds for every catalog", "anchors": ["treecorr/nnncorrelation.py:410-530", "treecorr/nnncorrelation.py:253-304", "treecorr/corr3base.py:1664-1776"]}
{"id": "C79", "title": "LogSAS three-point sums with bin_slop=0 are the brute-force sums over apexes", "statement": "For bin_type='LogSAS' with metric='Euclidean' and bin_slop=0, every per-bin array (ntri, weight, the sums behind meand1..meanphi, the logs, and zeta of a kappa catalog) after process equals the brute-force sum over labelled triangles (a,b,c): d2=|ac| and d3=|ab| in their geometric bins, the angle at the apex a in its linear bin, b and c distinct, and (a,c,b) counter-clockwise. process(cat) adds every unordered triangle once with each of its corners as the apex; process(cat1,cat2,ordered=True) adds the apexes of cat1, ordered=False additionally those of cat2; process(cat1,cat2,cat3,ordered=False) adds all three corners and equals the sum of the six ordered=True calls; ordered=True in the plane adds exactly the labelled triangles with apex in cat1. The result does not depend on how the catalog is split into cells or on threads, and a run always exists. Hypotheses: max_phi >= 60 degrees, min_phi <= 120 degrees; for the one- and two-catalog calls min_phi = 0; unordered calls have no three distinct positions on a line (plane) or great circle (sky); nonzero weights; single catalogs with ordered=True lie in the plane. Each hypothesis is needed: with bin_slop=0 the code drops triangles when min_phi > 0 in process12, when max_phi < 60 degrees, when min_phi > 120 degrees, and when ordered=True away from the plane; for positions on a line the bin depends on the order of the catalogs (all refuted by concrete runs).", "quantifier": "all parameters satisfying validSAS, all catalogs, all trees the builder may produce, all thread schedules, all bins and all arrays", "why_tests_cant": "the stop tests involve angles of whole cells, so a wrong bound loses triangles only for particular shapes of trees; comparing one catalog with brute force cannot exclude that, and the failing cases need configurations no test uses", "anchors": ["include/BinType.h:804", "include/BinType.h:873", "include/BinType.h:1073", "include/BinType.h:1180", "src/Corr3.cpp:453", "src/Corr3.cpp:529", "src/Corr3.cpp:603"]}
{"id": "C80", "title": "Three-point shear sums (GGG) with bin_slop=0 are the brute-force sums over triangles", "statement": "For GGGCorrelation with bin_type LogRUV or LogSAS, metric Euclidean and bin_slop=0 (hypotheses as in C65/C79; off the plane no position at a pole and no triangle whose centroid direction is undefined), after process each of gam0r..gam3i in every bin has grown by the brute-force sum, over the labelled triangles which the binning puts there, of w1 w2 w3 times gamma0 = g1 g2 g3, gamma1 = g1* g2 g3, gamma2 = g1 g2* g3, gamma3 = g1 g2 g3*, where each g is first turned so that its real part is the shear along the direction of the centroid of the triangle (in the plane: the direction from the point to the mean of the three points; on the sky: the great circle from the centroid direction) and the point order is that of the bin. This holds for one, two and three catalogs, ordered or not, every tree and thread schedule, starting from any content of the arrays; a run exists; after finalize gam times weight is that sum.", "quantifier": "all parameters with exact binning, all catalogs with any shears and weights allowed by the hypotheses, all trees, all thread schedules, all four gammas, real and imaginary part, all bins", "why_tests_cant": "The tests compare with direct loops on one catalog of 100 points and within a tolerance; a wrong conjugate or projection for one rare order of the vertices would only be seen for the bins filled by it.", "anchors": ["src/Corr3.cpp:1858-1905", "include/ProjectHelper.h:107-123", "include/ProjectHelper.h:277-289", "include/ProjectHelper.h:394-410", "treecorr/gggcorrelation.py:270-330", "include/Corr3.h:559-625"]}
{"id": "C81", "title": "Symmetries of the three-point shear correlation", "statement": "For a catalog processed as in C80: turning every shear by 45 degrees multiplies gam0 by -i and gam1, gam2, gam3 by i in every bin; a rigid motion of the plane that also turns the shears, and any rotation of the sky with the shears carried along, leave all gammas in all bins unchanged; for LogRUV in the plane, reflecting the catalog (y and g2 change sign) gives the complex conjugates with v and -v bins exchanged; exchanging two vertices permutes the natural components as gam0 fixed, gam2 <-> gam3 (vertices 2,3), gam1 <-> gam2 (vertices 1,2).", "quantifier": "all catalogs, all angles of rotation and translations, all rotations of the sphere (no point moved to a pole), all bins, all four gammas", "why_tests_cant": "Rotations and catalogs are continuous families; the tests rotate no catalog for GGG at all and check the parity behaviour only through the functional form of one shear profile.", "anchors": ["src/Corr3.cpp:1858-1905", "include/ProjectHelper.h:107-123", "include/ProjectHelper.h:277-289", "include/BinType.h:600-800"]}
{"id": "C82", "title": "The x projection used by the GGG multipole method", "statement": "ProjectX turns the shears at vertices 2 and 3 so that they refer to the lines from vertex 1, and the shear at vertex 1 so that it refers to the bisector of the two lines (Porth et al): in the plane the values are multiplied by exp(-2i a2), exp(-2i a3) and exp(-i(a2+a3)); on the sphere the same with the directions of the great circles at each point. Refuted for ThreeD coordinates: that version calls the one for the sphere with z3 passed in place of z2 as well, so that the shear at vertex 2 is not projected at all and the one at vertex 3 is turned twice (C82_threed_refuted).", "quantifier": "all triangles (no two vertices equal, the angle at vertex 1 not 180 degrees; on the sphere no vertex at a pole), all shears", "why_tests_cant": "An error in the half-angle would depend on the branch of the square root; tests with random points compare only averaged multipoles, and no GGG multipole test uses ThreeD coordinates.", "anchors": ["include/ProjectHelper.h:125-153", "include/ProjectHelper.h:291-342", "include/ProjectHelper.h:412-426", "src/Corr3.cpp:1910-1930"]}
{"id": "C83", "title": "Aperture statistics: kernels, E/B separation, units", "statement": "The kernels T+, T- of calculateMapSq and S+, S- of calculateGamSq are E/B pairs for both forms of U: T-(s) = T+(s) + (4/s^2) int_0^s t T+ dt - (12/s^4) int_0^s t^3 T+ dt, with the integrals of t T+ and t^3 T+ over all t equal to 0 (for S+: 1, so that a constant shear has variance 1), also outside the aperture; the kernel of calculateNMap belongs to the same aperture, T+(s) = int_s 2 Tx(t)/t dt - Tx(s). The returned values are the sums of s (T+ xi+ +- T- xi-)/2 ds over the bins with ds = s bin_size and do not depend on the unit of length. Turning all shears by 45 degrees exchanges <Map^2> and <Mx^2> (their imaginary parts too) and the E and B part of the tophat variance, and takes <N Map> to -<N Mx> and <N Mx> to <N Map> (bin_slop=0). <N Map>, <N Mx> and <Nap^2> are the sums of s Tx xi ds and s T+ xi ds; the docstring of calculateNapSq has an additional factor 1/2 (C83_nap_documented_refuted). The returned variances are those of linear error propagation: each is the variance of the returned sum when the bins are uncorrelated with the given variances. calculateNMap and calculateNapSq accept Linear binning, for which the value depends on the unit of length (C83_linear_refuted). The file of writeNorm holds these statistics, the ratios <N Map>^2/(<Nap^2><Map^2>) and <Nap^2>/<Map^2>, and the square roots of their variances by first-order error propagation, where none of the three is 0; a common calibration factor of the shears drops out of the first ratio and its error; where <N Map> = 0 its error is not a number although the propagated one is 0 (C83_norm_zero_refuted).", "quantifier": "all s > 0, both m2_uform, all radii R, all catalogs with positive weights", "why_tests_cant": "Tests compare with a numerical integral at a few radii for one smooth correlation function and loose tolerance (10 %), which cannot see a wrong coefficient in the small terms of the polynomials.", "anchors": ["treecorr/ggcorrelation.py:188-312", "treecorr/ngcorrelation.py:247-283", "treecorr/ngcorrelation.py:382-408", "treecorr/nncorrelation.py:772-803"]}
{"id": "C84", "title": "Aperture mass skewness: the T functions, permutations, combinations, variance and symmetries", "statement": "For a finalized GGGCorrelation (LogRUV or LogSAS), calculateMap3(R, k2, k3): (1) for every triangle of galaxies in the plane that is not collinear, if the means of a bin are those of the triangle, the factor T_n that the code builds (from meand2, meand3, meanu, meanv or meanphi) times the natural component of the triangle (as process() accumulates it) is the integral over all centres of the product of the three Crittenden aperture contributions, the n-th one conjugated, for any three positive radii; the branch for equal radii is the general formula. (2) the area element used for a bin is the Jacobian of the position of the second vertex with respect to the binned variables. (3) <MMM>, <M*MM>, <MM*M>, <MMM*> are the sums over all assignments of the three radii to the vertices (6 for LogRUV, 2 for LogSAS), also when k2=k3=1. (4) the eight returned values are the eight products of Map and Mx when the four moments are those of M = Map + i Mx. (5) the returned variance is the propagated variance of map3 and of mx3; that it equals that of each of the eight values, as documented, is refuted (C84_mixed_refuted). (6) exchanging k2 and k3 exchanges the corresponding results; with LogRUV so does taking k2 R as the first radius; turning all shears by 45 degrees maps Map to -Mx and Mx to Map; mirroring negates exactly the values with an odd number of Mx.", "quantifier": "all triangles, radii, k2, k3 > 0 and contents of the bins", "why_tests_cant": "The test suite compares with a few simulated fields at tolerances of several per cent, where a wrong coefficient of a small term, a wrong permutation or a wrong branch is not visible.", "anchors": ["treecorr/gggcorrelation.py:701-796", "treecorr/gggcorrelation.py:798-1056"]}
{"id": "C85", "title": "Three-point binning parameters: the completed u, v and phi ranges, slops and units", "statement": "When a LogRUV or LogSAS Corr3 is built from separation, u, v and phi arguments whose given numbers of bins, bin sizes and units are positive, every accepted configuration is a consistent binning. The u bins lie in [0,1] and the phi bins in [0,pi]; max = min + n*bin_size with n > 0 and bin_size > 0. Given limits and given numbers are kept (phi limits converted by phi_units). If the number is given together with a bin size then that bin size is used unless the range had to be clipped at the end of [0,1] or [0,pi]; if the number is not given then the bins are at most as wide as asked for and one bin fewer would be too few, up to 1e-10. So LogSAS always yields a valid SAS binning, and LogRUV yields a valid RUV binning whenever min_v >= 0. min_v >= 0 holds unless max_v, nvbins and vbin_size are all given; in that case it is refuted: max_v=0.5, nvbins=10, vbin_size=0.1 is accepted with min_v=-0.5 and the bins for positive and negative v overlap. bin_slop=0 gives b=bu=bv=0, bin_slop=None gives min(bin_size, 0.1) for each, and a positive bin_slop multiplies each bin size. phi_units converts min_phi and max_phi only; that phi_bin_size is also in phi_units is refuted (phi_bin_size=10 in degrees gives one bin of 180 degrees).", "quantifier": "all combinations of given and omitted arguments with positive numbers, sizes and units", "why_tests_cant": "The tests try a dozen combinations of arguments; a wrong anchor, clip or rounding in one of the other combinations is not seen.", "anchors": ["treecorr/corr3base.py:406-573", "treecorr/corr3base.py:584-624"]}
{"id": "C86", "title": "LogMultipole GGG: the natural components are sums over triangles", "statement": "A GGG process call with bin_type='LogMultipole', flat coordinates, Euclidean metric and points seen individually (brute force, or angle_slop=0, bin_slop=0) adds to gam0..gam3 at (k2,k3,n) exactly the sum over the triangles with d2 in bin k2 and d3 in bin k3 of the product of the three weighted shears times exp(i n phi), where phi is the angle at point 1 from point 2 to point 3, the shears at points 2 and 3 are taken with respect to the sides to point 1 and the shear at point 1 with respect to the bisector of these sides, and in component i=1,2,3 the shear of point i is conjugated. This holds for the auto-correlation, for cross-correlations of two catalogs with both settings of ordered and of three catalogs with all three settings, for both signs of n, and includes the exact removal of the terms in which points 2 and 3 are the same object (no two rows of the catalog used for both points may coincide). The ntri, weight and distance arrays are those of an NNN run with the same catalogs, so C71-C73 apply to them. Runs exist for all non-empty catalogs and any slop.", "quantifier": "all flat catalogs, weights (also negative), shears, numbers of bins and multipoles, tree splits and thread schedules", "why_tests_cant": "The tests compare one random catalog with brute force at a tolerance; they do not cover the correction terms for every component, sign of n, ordering and pair of bins.", "anchors": ["src/Corr3.cpp:1980-2503", "include/MultipoleScratch.h", "src/Cell.cpp:154-168", "include/ProjectHelper.h:76-94", "treecorr/corr3base.py:1547-1658"]}
{"id": "C87", "title": "Three-point finalize: weighted means, units, chords turned into arcs, nominal values of empty bins", "statement": "After finalize of a three-point correlation every bin with nonzero weight (no spherical coordinates with Euclidean metric) holds the weighted means: d1, d2, d3 divided by sep_units, their logarithms minus log(sep_units), u and v for LogRUV, phi divided by phi_units for LogSAS, and the means of all products of fields. For spherical coordinates with the Euclidean metric, if the triangles of a bin are congruent, the distances are exactly the great-circle arcs (not the chords) and meanphi is exactly the angle of the spherical triangle at point 1, in the configured units. Bins without weight get a nominal triangle: for LogRUV d3/d2=u, (d1-d2)/d3=|v|; for LogSAS d1 obeys the law of cosines. For LogMultipole ntri and the distance columns at every n are those of n=0 and the weights and zeta are left as they are. Limits, proved as refutations: the meanphi of an empty LogSAS bin is in radians whatever phi_units says (C87_phi_units_refuted), and if the triangles of a bin differ the distance is the arc of the mean chord, not the mean of the arcs (C87_mean_arc_refuted).", "quantifier": "all bins, lists of triangles, weights with nonzero sum, units; all unit vectors with p1 not opposite to p2 or p3", "why_tests_cant": "Tests compare mean distances to brute force with tolerances of percents, so small errors in the conversion of chords and angles, or wrong units in empty bins, pass.", "anchors": ["treecorr/corr3base.py:1810-1874", "treecorr/corr3base.py:2194-2230"]}
{"id": "C88", "title": "toSAS: weights, numbers, projections and patch results of the LogSAS object made from multipoles", "statement": "toSAS of a LogMultipole object gives for each (k2,k3,phi_j) the weight phi_bin_size/(2 pi) times the sum over the triangles with d2 in bin k2 and d3 in bin k3 of www D(phi_j - phi), where phi is the angle at point 1 from point 3 to point 2 and D(x) = 1 + 2 sum_n cos(n x), n <= max_n, i.e. sin((2 max_n+1)x/2)/sin(x/2); zeta of KKK is the ratio of the sums with and without the fields. This is proved for the arrays of whole runs (auto, cross12, cross; flat, points seen individually). Over phi in [0,pi] with 2 nphi_bins > max_n the weights of (k2,k3) and (k3,k2) of an auto-correlation add up exactly to the weight of all triangles. ntri is distributed in proportion to the weights and adds up to the total times (max_phi-min_phi)/(2 pi). meand1 obeys the law of cosines with the mean d2, d3 and the phi of the bin. For GGG, if the triangles of a bin have the shape of the bin, gam0..gam3 are exactly the weighted means of the natural components with respect to the centroid: the change of projection is exact. The converted patch results add up to the converted total. Limits, proved as refutations: weights and ntri can be negative (C88_negative_refuted), and the ntri of (k2,k3) is not the number of its triangles with phi in the range (C88_side_refuted).", "quantifier": "all max_n, phi binnings, weights and fields, catalogs, tree splits, thread schedules, sets of patch results", "why_tests_cant": "Tests compare toSAS with the direct LogSAS result within tolerances of several percent because of the truncated series; a wrong sign of phi, a missing factor or a wrong phase for one component can hide in that.", "anchors": ["treecorr/corr3base.py:1941-2031", "treecorr/nnncorrelation.py:418-424", "treecorr/kkkcorrelation.py:315-328", "treecorr/gggcorrelation.py:441-537"]}
{"id": "C89", "title": "Rperp metric: the separation, exact counts and line-of-sight limits", "statement": "With metric='Rperp' the separation of two positions p and q is the distance of q from the line through p along the mean direction p+q (the documented r_perp, shortest distance to the line of sight through p), for every p and q including p+q = 0. With bin_slop = 0, every cross- or auto-correlation of positively weighted catalogs adds to each bin exactly the pairs whose r_perp is in the bin, with no restriction on where the objects are (a cell may contain the observer or reach to its antipode, since the sizes grow by the factor 2|p|/|p+q|). With min_rpar/max_rpar, when all objects are beyond distance D from the observer (along some direction) and within Delta of each other, each pair is counted in the bin of its own r_perp with its own line-of-sight separation within the limits up to Delta^2/D, or is dropped and is outside of the bins or of the limits up to Delta^2/D; with no pair that close to a limit the result is exact (for auto-correlations with limits symmetric about 0). For metric='OldRperp' a pair of cells dropped as too far apart contains no pair below max_sep, but exactness at bin_slop = 0 is false: C89_oldrperp_refuted gives an object on the other side of the observer for which a pair below min_sep is counted.", "quantifier": "for all catalogs, cell trees, schedules and bin settings (bin_slop = 0)", "why_tests_cant": "The existing tests compare Rperp with brute force only for surveys far from the observer; no test varies all positions, in particular cells near the observer or antipodal pairs.", "anchors": ["include/Metric.h:256-381", "include/Metric.h:383-517", "include/Metric.h:52-118", "src/Corr2.cpp:280-420"]}
{"id": "C90", "title": "k-means with alt=True: what an iteration does, and that iterations need not converge", "statement": "One iteration of kmeans_refine_centers(alt=True) (min_size=0) first gives every object its nearest centre and estimates for each patch i the inertia E_i of its objects about the centre, in units of a third of the mean weight of a patch; the estimate is at least 3/4 of the inertia and at most 4 r^2 times the weight, where r is the greatest distance of an object of the patch from the centre. Then every object goes to a patch for which squared distance + E_i is least among all patches, so objects only move from patches with larger E to patches with smaller or equal E, no object is lost or duplicated, and the new centres are the weighted means of the patches. The iterations need not converge, and an iteration can increase the inertia (C90_converges_refuted: for three objects, npatch=2, init='tree' they alternate between two sets of centres for ever).", "quantifier": "all catalogs with nonnegative weights in flat or 3-D coordinates, all trees built for them, all centres, all distributions of the cells over threads", "why_tests_cant": "the effect depends on the tree and on real-valued comparisons for every object; convergence is a statement about all iteration counts", "anchors": ["src/KMeans.cpp:386-462", "src/KMeans.cpp:537-650", "src/KMeans.cpp:768-836", "treecorr/field.py:425-505"]}
{"id": "C91", "title": "corr2: from the input files to the columns of the NN output file", "statement": "For the NN part of corr2 (Euclidean metric, bin_slop=0, no sep_units), whenever the run writes the output: DD is the weighted number of pairs in the bin over all rows of all data files and npairs their number; with random files, RR (and DR, RD) are the corresponding brute-force counts of the random files scaled by the ratio of the total weights of all pairs (W^2/2 for auto, W1*W2 for cross), and xi is (DD - 2DR + RR)/RR for an auto-correlation, (DD - DR - RD + RR)/RR for a cross-correlation (nn_statistic='compensated') or (DD - RR)/RR ('simple') of these normalised counts, wherever RR is not 0; without random files there is no xi column. Every run ends with a written file or an exception; TypeError is raised only for missing files (no file_name; rand_file_name2 without file_name2; file_name2 and rand_file_name without rand_file_name2) and for these no file is written. With several files per input (without patches) the numbers of data files and random files must agree unless one is 1: otherwise RuntimeError. The counts do not depend on how the rows are distributed over files or over the patches of one file. Not true for several files each with its own patches: pairs of rows in equally numbered patches of different files are not counted (C91_patched_files_refuted).", "quantifier": "all contents of the input files with positive weights, both values of nn_statistic, all distributions of the rows over files and patches", "why_tests_cant": "Tests run corr2 on one configuration per estimator and compare with the same python classes called by hand, so an error shared by both, or a wrong choice of catalogs for lists of files, is not seen.", "anchors": ["treecorr/exec_corr2.py:187-240", "treecorr/catalog.py:2917-3003, 3215-3271", "treecorr/corr2base.py:784-800, 839-895, 930-975", "treecorr/nncorrelation.py:330-439, 540-625"]}
{"id": "C92", "title": "estimate_multi_cov: blocks, exceptions and derived data vectors", "statement": "estimate_multi_cov(corrs, method) with method='jackknife', 'bootstrap' or 'marked_bootstrap' raises ValueError if some object has no patch results, RuntimeError if the numbers of patches differ and IndexError if the list is empty, and otherwise returns a matrix. For these methods the block of any two objects of the list is the (jackknife resp. bootstrap) covariance of the rows which these two objects give on their own for the same selections of patches: it depends neither on the other objects nor on the order of the list, and the block of an object on the diagonal is the matrix that its own estimate_cov gives (bootstrap: with the same draws and num_bootstrap). For a func that multiplies the default data vector by a matrix M the result is conj(M) C M^T. For method='sample' each patch is weighted with the total weight of all the objects, so that the block of an object is in general not its own matrix (C92_sample_own_refuted). method='shot' gives, in the order of the list, the variance of each object divided by the weight of the bin (0 where the weight is 0), and ValueError for an empty list or if func is given. estimate_cov with func gives the covariance of what func returns for the object in each row.", "quantifier": "all lists of correlation objects of any classes with any patch results, all draws of the random generator, all linear data vectors", "why_tests_cant": "Tests compare matrices of a few correlations with a tolerance; that no other object of the list can influence a block is a statement about all lists and all classes.", "anchors": ["treecorr/corr2base.py: estimate_multi_cov, build_multi_cov_design_matrix, _make_cov_design_matrix_core, _check_patch_nums, _cov_jackknife, _cov_sample, _cov_marked, _cov_bootstrap, Corr2.estimate_cov"]}
{"id": "C93", "title": "A copy of a correlation object and its original", "statement": "After c2 = c1.copy(), c2 shows the arrays and the patch results of c1. No sequence of clear, +=, copy and process calls on other objects changes the arrays of c1. Its patch results stay as they are too, provided that process(initialize=False) is called only on objects that were cleared or processed with initialize=True since they were copied from c1 (or from a copy that still shares them); such a copy gets what a new object would get. Without the proviso it is false: accumulating with initialize=False in a fresh copy changes the patch results, hence the covariance, of the original, whose results then no longer sum to its arrays (C93_shared_results_refuted).", "quantifier": "all programs made of copy, clear, += and process calls on any number of objects, all catalogs", "why_tests_cant": "Aliasing shows only after particular histories of calls; the statement is about every history.", "anchors": ["treecorr/corr2base.py: Corr2.copy, Corr2.clear, Corr2.process, Corr2._single_process12", "treecorr/corr3base.py: Corr3.copy"]}
{"id": "C94", "title": "Patches with save_patch_dir and low_mem hold the rows of the catalog", "statement": "Take a catalog with npatch > 1, made from arrays or from a file, in which every patch number below npatch occurs with a nonzero sum of weights. Without save_patch_dir, get_patches gives, with or without low_mem, for each patch number in order a catalog with the columns of the original and exactly the rows of the original with that number, in order (C94_unsaved). With save_patch_dir and no row of weight zero, when not all patch files exist yet, the same holds for the first call; the files of catalogs with another base name and the files of numbers from npatch on are left alone; and any later object made from the same input gets, from the files and without changing them, patches with the same columns and rows, with or without low_mem (C94_saved). For low_mem with a file this needs that x_units are not used, that the column w is given by w_col or nothing gives rise to weights, and that the catalog is loaded or no column is given by *_eval. Each of these conditions is needed, though docs/patches.rst says the result should be equivalent to holding the catalogs in memory: rows of weight zero kept by keep_zero_weight are lost (C94_zero_weight_refuted); positions with x_units are read back without the units (C94_units_refuted); columns given by *_eval are lost (C94_eval_refuted); a NaN in one patch of a loaded catalog makes get_patches fail (C94_nan_refuted); a patch number without objects makes it fail (C94_gap_refuted); two catalogs made from arrays share the file names, and the second one gets the patches of the first (C94_same_names_refuted).", "quantifier": "all catalogs (columns, weights, wpos, flags, units, ignore_flag, keep_zero_weight, rows, including NaN), all numbers of patches, all prior contents of the directory", "why_tests_cant": "A test would have to combine low_mem, save_patch_dir, each kind of input and each kind of column; the existing ones use ra/dec catalogs with plain columns, no units and no empty patch.", "anchors": ["treecorr/catalog.py:1925-2183", "treecorr/catalog.py:2795-3131", "docs/patches.rst:270-330"]}
{"id": "C95", "title": "Shot-noise variances of xi and zeta", "statement": "With var_method='shot' and fields that are pure noise (every value keeps its size and takes an independent random sign), the mean of xi^2 of a KK bin over all signs is sum of (w1 w2 k1 k2)^2 over its pairs divided by W^2, and varxi = vark1 vark2/W is exactly this mean when weights and sizes are equal, for auto and cross correlations alike. Rescaling the weights of the catalogs leaves xi and varxi of KK, and the NN varxi, unchanged. For NK with lens weight c the noise is at least c times varxi, with equality if no source is near two lenses. varzeta of KKK is exact for LogRUV under the same conditions; for LogSAS it differs from the noise by the factor sum(m^2)/(2 sum(m)), m being the times each triangle is counted in the bin. In the plane (exact setting, angle_slop 0), with equal weights and shears whose two components have equal sizes and independent signs, varxip = varxim of a GG cross-correlation is exactly the mean square of the real part of xi+ and of xi-, and varxi of KG that of each of its two parts. Refuted: that the NK varxi is the noise whatever the lens weights (C95_lens_weights_refuted), that the vark option is the variance of the values (C95_vark_option_refuted: it is divided by the weights), and that the LogSAS varzeta is the noise (C95_kkk_sas_refuted).", "quantifier": "all catalogs, all binnings in the exact setting (bin_slop 0), all runs, all sign patterns", "why_tests_cant": "Tests compare varxi with the scatter of some hundred simulations to 10-20 per cent, at weights near 1; the exact mean over all 2^n sign patterns and the dependence on the units of the weights are beyond them.", "anchors": ["treecorr/corr2base.py:1130-1190", "treecorr/corr2base.py:2079-2094", "treecorr/kkcorrelation.py:140-164", "treecorr/nkcorrelation.py:140-166", "treecorr/nncorrelation.py:325-391", "treecorr/kkkcorrelation.py:246-271", "treecorr/catalog.py:145-215", "treecorr/catalog.py:1181-1201"]}
{"id": "C96", "title": "Periodic metric: moving objects by whole periods", "statement": "With metric='Periodic' and bin_slop=0, moving any objects of the catalogs by whole numbers of periods changes no count, weight, NK or KK sum, in auto and cross correlations. The shear correlations take the separation of a pair from the nearest image but the direction from the positions as given: NG, KG and GG (flat, brute force) equal the sums projected along the raw direction, which is the direction to the nearest image when no pair of the bin straddles a boundary. Refuted: that shear results are unchanged too (C96_shear_refuted: a tangential shear of 1 across the boundary is reported as -8/17).", "quantifier": "all catalogs, all positive periods, all moves by integer multiples, all trees and schedules", "why_tests_cant": "Tests of Periodic use counts only; wrapped pairs of shears are never compared with their moved copies.", "anchors": ["include/Metric.h:732-800", "include/ProjectHelper.h:73-105", "include/Position.h: wrap", "docs/metric.rst:167-195", "treecorr/corr2base.py:1380-1400"]}
{"id": "C97", "title": "Patch centres", "statement": "get_patch_centers() returns the given centres unchanged if the catalog has k-means or given centres. Otherwise it raises RuntimeError exactly when some patch number below npatch = max(patch)+1 has no objects, and else the centre of each patch (or of the catalog, without patches) is the one point of the plane (3d: of space; spherical: of the unit sphere) with the least weighted sum of squared distances to the objects of the patch; flat and 3d centres lie in every half space containing these objects. This needs non-negative weights that are not all 0 and, on the sphere, a mean position other than the origin. write_patch_centers followed by read_patch_centers gives the same centres. Refuted: that a catalog with objects in every patch has finite centres (C97_weightless_refuted, C97_antipodal_refuted: NaN without an exception), that using the centres as patch_centers gives the patches back (C97_reassign_refuted), and the reading of the documentation that 3d centres are on the unit sphere (C97_unit_3d_refuted).", "quantifier": "all catalogs (flat, 3d, spherical), all patch numbers and weights, all competing points", "why_tests_cant": "Tests check centres of a few catalogs against means computed with the same formula; optimality against all points and the exact set of catalogs that raise are beyond them.", "anchors": ["treecorr/catalog.py:2621-2735", "treecorr/catalog.py:1523-1529", "treecorr/catalog.py:835-860"]}
{"id": "C98", "title": "What corr2 and corr3 compute and write", "statement": "corr2(config) writes the requested files (nn, nk, kk, ng, nm, norm, kg, gg, m2, nz, ..., qq) one after the other in a fixed order, each made from the documented inputs: NN from DD, RR (if randoms are given), DR (compensated) and RD (compensated and a second catalog); NK, NG, NZ, NV, NT, NQ compensated with the randoms if and only if randoms are given and the statistic is not 'simple'; norm from the NG, the GG of the sources and the DD, RR, DR of the lenses. It stops at the first file that cannot be made, with a TypeError if file_name2, the randoms or rand_file_name2 are missing, or with the exception of the processing or writing; the files before it have been written. Each file holds what it would hold if it were the only one requested: no block uses an object left over from another. corr3 does the same with GGG, Map3, NNN (RRR, DRR, RDD) and KKK. Refuted: that missing randoms for norm_file_name give a TypeError (C98_norm_refuted: AttributeError, after the NG file was written) and that random files which are given are used or rejected (C98_rand2_refuted: rand_file_name2 without rand_file_name is ignored).", "quantifier": "all sets of requested files, all combinations of inputs and statistics, all results and exceptions of processing and writing", "why_tests_cant": "Tests run corr2 with one output at a time on small files; the 2^21 sets of outputs with 2^4 inputs cannot be tried, nor all points of failure.", "anchors": ["treecorr/exec_corr2.py:147-510", "treecorr/exec_corr3.py:70-165", "treecorr/corr2base.py:1109-1135"]}
{"id": "C99", "title": "A three-point correlation read from its file has the values that were written", "statement": "For KKK, GGG and NNN with LogRUV, LogSAS or LogMultipole bins, write followed by read (or from_file with the same class) gives back every mean separation, the third-side or angle column of the bin type, the weights (both parts for LogMultipole), ntri, coords, metric, the correlation functions and their variances, and for NNN tot, zeta and varzeta. With write_patch_results the patch numbers and the results dict come back with the same keys and values, and for NNN also the zero entries with their tot and the objects rrr, drr, rdd with their own results, whether they were arguments of write or stored by calculateZeta; without it the results are empty. With write_cov the covariance comes back (FITS and HDF). When rrr (and drr, rdd) are given to write, the columns RRR, DRR, RDD hold their weights scaled by the ratio of the totals. from_file of another class raises OSError. write of a LogMultipole NNN with rrr raises TypeError. Two parts of the natural claim are false and refuted: read into an object that already has zeta keeps the old zeta and covariance when the file has none (C99_stale_refuted), and an ASCII file in which all patch results are zero cannot be read (C99_ascii_zero_refuted).", "quantifier": "For all objects with arrays of the shape of the bins and variances that are not negative, all result dicts with distinct keys, all bin types, all options and all objects that read the file; numbers of ASCII files as far as they survive the precision.", "why_tests_cant": "The tests write and read a few objects with fixed bins; whether each column of each class and bin type comes back under its own name, and each zero or non-zero patch triple with its key, is a statement about all objects.", "anchors": ["treecorr/corr3base.py:2415-2604", "treecorr/nnncorrelation.py:766-955", "treecorr/kkkcorrelation.py:418-467", "treecorr/gggcorrelation.py:635-702"]}
