# Formal model of rmjarvis/TreeCorr in Rocq (Coq 8.16.1)

## 1. Approach

The model is a set of Gallina definitions, one per function of the code, in
`rocq/theories/*.v`, each with a comment citing file and lines in `/repo`.
Two number systems are used:

* **Geometry and weights** (C++ core: positions, cells, metrics, bin types, accumulators)
  use the real numbers of the Coq standard library. `double`/`float` rounding, overflow,
  NaN and signed zeros are *not* modelled. The one IEEE special value that the code uses
  deliberately, `+infinity` as the size of a cell when `brute=True`, is modelled with an
  explicit extended-size type; NaN in catalog columns is an explicit option value.
* **Book-keeping** (patch dictionaries, MPI ranks, caches, configs, samplers) uses
  `nat`, `Z`, `Q`, `list`, `string`.

Non-determinism is kept: the unspecified element order after `std::partition` and
`std::nth_element`, random split points, random draws, OpenMP schedules, the order in
which threads merge, and the order in which MPI messages arrive are universally quantified
(relations or arbitrary arguments). Where the model is a relation, a theorem shows that an
outcome always exists, so that "for every outcome" is not empty.

Every property has a small *specification* stated without the model's helpers (`Spec*.v`: brute-force
double sums over the list of objects, bins given by their edges, polar angles, great circles,
rotations) and theorems relating the model's result to it. Beside each theorem an `Example`
shows that its hypotheses are met by a concrete non-trivial case. When the faithful model
violates the natural property we prove `..._refuted : exists ...` with a concrete witness and
state in `properties.jsonl` the strongest version that holds, together with the refutation.

Loops of the code that are not obviously terminating (the pair traversal, k-means++, the
sampler) are modelled with fuel and an `option` result; theorems show that the fuel given by
the model always suffices (or, for random rejection loops, exactly on which streams).

## 2. Trusted base

* Coq 8.16.1 kernel (checked again with `coqchk`). No plugin, no extraction, no `native_compute`.
* Axioms: only those of the standard library's `Reals`
  (`ClassicalDedekindReals.sig_forall_dec`, `ClassicalDedekindReals.sig_not_dec`,
  `FunctionalExtensionality.functional_extensionality_dep`) and `Classical_Prop.classic`, which the
  library itself uses for some facts about `Reals`.
  The output of `Print Assumptions` for each theorem is recorded in section 6. No axiom, parameter or
  unproved hypothesis is added.
* The reading of the code: the model was written by hand from the source text (nothing is
  executed or extracted from `/repo`). Each definition cites its lines and its simplifications.

## 3. What is modelled

| file | code modelled |
|---|---|
| `Geometry.v` | `Position.h`; `Metric.h` (Euclidean, Periodic, Rlens, Arc, Rperp, OldRperp: distances, effective sizes, line-of-sight separation, tests on it); `BinType.h` (Log, Linear, TwoD: bin index, too small/large, range, singleBin); `Split.h` |
| `Tree.v` | `Cell.cpp` (BuildCell, SplitData with the four split methods, sizes, averages), `Field.cpp` (top level cells), `Bounds.h` |
| `Traverse.v` | `Corr2.cpp` process, process2, process11, directProcess11, finishProcess, operator+=, OpenMP merge, early exit |
| `Run.v` | `corr2base.py` one call of process_auto / process_cross: fields built with the sizes from `_get_minmax_size`, then the traversal |
| `Corr.v` | `corr2base.py`, `nncorrelation.py`, `kkcorrelation.py`: clear, iadd, finalize, calculateXi, sum of stored results |
| `Patch.v` | `corr2base.py:720-992`: `_process_all_auto/_cross`, is_my_job, the MPI merge, patch_method='local', trivially-zero skips, NN tot; `catalog.py` get_patches |
| `Cov.v` | `corr2base.py:1544-1692, 2007-2250`, `nncorrelation.py:441-509`: the pairs of each jackknife / sample / bootstrap / marked bootstrap row, the design matrix (serial and MPI), the covariance |
| `MultiCov.v` | `corr2base.py:1305-1310, 1349-1354, 1943-2250`: estimate_multi_cov, build_multi_cov_design_matrix, estimate_cov for a list of objects of any classes (an object is its getStat, getWeight, _calculate_xi_from_pairs and its lists of pairs) |
| `Copy.v` | `corr2base.py:669-685, 706-712, 1114-1115, 1202-1227`, `corr3base.py:1061-1074`: copy, clear, += and process(initialize) as operations on objects with references to results dicts |
| `SavePatch.v` | `catalog.py:1925-2183, 2795-3131`: get_patches with save_patch_dir and low_mem, write_patches, read_patches, loading of single patches; the files as a map from base name and number to columns and rows |
| `Shot.v` | `corr2base.py:1130-1190, 2079-2094`, `kkcorrelation.py:140-164`, `nkcorrelation.py:140-166`, `nncorrelation.py:325-391`, `kkkcorrelation.py:246-271`, `catalog.py:1181-1201`: the numbers behind var_method='shot' (vark, _var_num, _cov_shot) for KK, NK, NN, KG, GG (`kzcorrelation.py:53-64`, `zzcorrelation.py:107-126`) and KKK; random signs are a finite mean over all sign patterns |
| `Centers.v` | `catalog.py:2621-2735, 1523-1529`: _weighted_mean, get_patch_centers, write_patch_centers, read_patch_centers; division by zero gives NaN (`None`); files hold exact numbers |
| `Binning.v` | `corr2base.py.__init__`: completion of min_sep, max_sep, nbins, bin_size, bin_slop, units; edges |
| `Config.v` | `config.py`: parsing of values, lines, parameter files; check_config, merge_config, get, get_from_list, make_minimal_config |
| `LRU.v` | `util.py` LRU_Cache, as a linked ring in a heap |
| `Near.v` | `Field.cpp` countNear, getNear; `field.py` count_near, get_near |
| `Sampler.v` | `Corr2.cpp` Sampler, SelectRandomFrom, SamplePairs; `corr2base.py` sample_pairs |
| `Catalog.v` | `catalog.py`: row selection, flags, NaN, weights, wpos, select, combine, variances |
| `Exec2.v` | `exec_corr2.py:187-240`: the NN part of corr2 (choice of DD, RR, DR, RD, the exceptions), `read_catalogs`, the columns of `NNCorrelation.write` except sigma_xi |
| `Driver.v` | `exec_corr2.py:147-510`, `exec_corr3.py:70-165`: the functions corr2 and corr3 as a whole: which objects are processed from which inputs and written to which files, in which order, with which exceptions; processing and writing are arbitrary functions that may raise |
| `Corr3IO.v` | `corr3base.py:2415-2604`, `nnncorrelation.py:766-955`, `kkkcorrelation.py:418-467`, `gggcorrelation.py:635-702`: write, read and from_file of KKK, GGG and NNN by column name, with patch results, zero results, randoms and covariance; ASCII rounding and the ASCII covariance are left to `CorrIO.v`; zeta and variances are given functions |
| `KMeans.v`, `KMPP.v` | `KMeans.cpp`: assignment, refinement (both algorithms), the three initialisations; `field.py`, `catalog.py` patch assignment |
| `Corr3.v` | `Corr3.cpp` process, process3, process12, process111, process111Sorted, finishProcess (the triangle algorithm); `BinType.h` LogRUV, LogSAS; `Metric.h` CCW; `corr3base.py` process_auto, process_cross12, process_cross without patches |
| `Patch3.v` | `corr3base.py` _trivially_zero, _single_process12, _single_process123, _process_all_auto, _process_all_cross12, _process_all_cross with patch_method 'global' and 'local' and their is_my_job; the three-point results dict and jackknife keys; `nnncorrelation.py` tot, _sum, _add_tot, the value of calculateZeta |
| `Multi.v` | `Corr3.cpp` multipole, multipoleSplit1, splitC2Cells, splitC2CellsOrCalculateGn, multipoleFinish, calculateGn, calculateZeta with CalculateGn and CalculateZeta of NNN and KKK; `MultipoleScratch.h`; `Cell.cpp` calculateSumWSq, calculateSumWKSq; `ProjectHelper.h` ExpIPhi; `corr3base.py` LogMultipole process_auto, process_cross12, process_cross without patches (finalize: `Fin3.v`; toSAS: `ToSas.v`; GGG: `MultiG.v`) |
| `MultiG.v` | `Corr3.cpp` CalculateGn and CalculateZeta of GGG; `MultipoleScratch.h` of GGG; `Cell.cpp` calculateSumWGSq, calculateSumAbsWGSq; `ProjectHelper.h` Project and ProjectWithSq (Flat); the LogMultipole process calls of GGG without patches. The traversal is the one of `Multi.v`. C86 is stated for Flat coordinates |
| `Zeta.v` | `nnncorrelation.py` calculateZeta (with dummy results and the checks of patch numbers), _calculate_xi_from_pairs (randoms with and without patches), `corr3base.py` _jackknife_pairs, _sample_pairs, _marked_pairs, _bootstrap_pairs, _ok. Not LogMultipole; _ok is computed, not cached; the shot noise values are left out |
| `CorrIO.v` | `corr2base.py` _write, _read, _read_from_data; the columns of NZ-type classes; `AsciiWriter`, `AsciiReader` as lines read in sequence (read_params, read_data with genfromtxt, read_array), FITS and HDF as named groups. Extension names are constructors, the construction parameters are not kept, ASCII rounding is any function of precision and number |
| `Comp.v` | `nkcorrelation.py`, `nzcorrelation.py`: finalize, _sum, calculateXi with dummy results, _calculate_xi_from_pairs, raw_varxi, varxi; `corr2base.py` cov_diag, _cov_shot, _cov_jackknife (diagonal), the aliasing of xi with raw_xi and the cached attributes. np.sum over no arrays is an error. Randoms that are themselves compensated are not modelled |
| `GGG.v` | `Corr3.cpp` ProcessZeta for GGG; `ProjectHelper.h` Project and ProjectX of three points (Flat, Sphere, ThreeD); `Corr3.h` ZetaData of GGG; `gggcorrelation.py` process calls without patches and _finalize for LogRUV and LogSAS (multipoles: `MultiG.v`) |
| `Aper.v` | `ggcorrelation.py` calculateMapSq, calculateGamSq; `ngcorrelation.py` calculateNMap; `nncorrelation.py` calculateNapSq, for one radius R (the results of calculateXi are arguments). Not: the write functions |
| `Norm.v` | `ngcorrelation.py:382-408`: the columns of writeNorm at one radius, from given aperture statistics and variances |
| `Map3.v` | `gggcorrelation.py` _calculateT, calculateMap3 for one radius R (the finalized arrays are arguments; `Cplx.v` is the field of complex numbers). Not: writeMap3, the log messages |
| `Fin3.v` | `corr3base.py` _finalize (1810-1874), _apply_units (2194-2230) for one bin, or one row of multipoles |
| `ToSas.v` | `corr3base.py` toSAS (1978-2025), and the toSAS of NNN, KKK, GGG, for one pair (k2,k3), with the items of results. Not: the creation of the target object and its checks |
| `Bin3.v` | `corr3base.py` 406-573, 584-624: completion of the separation, u, v, phi arguments for LogRUV and LogSAS, sep_units, phi_units, bin_slop, angle_slop. Not: LogMultipole arguments, warnings, the check of unknown keywords |
| `Spin.v` | `ProjectHelper.h`, spin parts of `Cell.h`, `Cell.cpp` (averages, parallel transport), `Corr2.cpp` (NG/KG/GG-type accumulation for spins 0-4) |

Specifications: `Spec.v`, `SpecRun.v`, `SpecSpin.v`, `SpecSphere.v`, `SpecTwoD.v`, `SpecTri.v`, `SpecMulti.v`, `SpecSas.v`, `SpecGGG.v`, `SpecMultiG.v`, `SpecFin3.v`, `SpecToSas.v`, `SpecAper.v`, `SpecMap3.v`, `SpecRperp.v`. Lemmas: `*Facts.v`, `Cover.v`, `Exact.v`,
`TriCover.v`, `TriStop.v`, `TriSpec.v`, `TriMirror.v`, `SasGeom.v`, `SasStop.v`, `SasSpec.v`,
`Lift.v`, `Runs.v`, `Account.v`. Theorems of the properties: `Props*.v` (named `Cnn_...`). `Assumptions.v` prints
the assumptions of all of them.

Main proof ideas:

* *Pair counting* (C01-C05, C11-C14, C41, C47, C48, C59-C61, C63). A traversal returns the list of terminal events.
  `Cover.v` shows, for an arbitrary tree and schedule, that accumulated and rejected cell pairs partition all pairs
  of objects. Per-event soundness (pruning, single bin) follows from a Lipschitz property of the
  metric and the invariant "every member is within size + min_size of the centre" (C09). Sums
  over events then equal the brute-force sums.
* *Rperp* (C89). Lipschitz bound of the distance from the line of sight with the growth factors of the sizes (`RperpFacts.v`: the
  bound is attained by moving one end of a chord; Minkowski's inequality for the two ends); then as for pair counting.
* *Trees* (C08-C10, C49): induction over the building relation; existence by strong induction.
* *Book-keeping* (C17-C24, C37-C40, C50, C51): permutation and counting lemmas on lists of jobs; algebra of finite sums;
  Gram matrices for semi-definiteness.
* *Caches, configs, parameters* (C26-C29, C44, C46, C52): refinement to lists, association-list reasoning, real algebra.
* *k-means, samplers* (C30-C34, C56-C58): invariants over the recursion or over the stream of draws.
* *Three-point sums* (C65-C67). `TriCover.v` shows for any per-triangle value that a traversal whose single decisions
  (drop, count, split) are right adds up the values of all triples; `TriStop.v` shows that the stopping rules are right
  for LogRUV (numbers against triangle inequality and Ptolemy's inequality for max_v).
* *LogSAS and shear* (C79-C82). The same cover lemma with the stopping rules of LogSAS (`SasStop.v`: law of cosines for the
  angle at the apex); the value of a triangle is generic, so the GGG sums follow once the projected product is shown to be
  linear in each vertex, and the symmetries follow from the brute-force sums.
* *Aperture mass skewness* (C84). `SpecMap3.v` states the integral over the centre of the apertures: the exponent is completed to a
  square and the polynomial in the centre and its conjugate is averaged with the moments of the complex Gaussian (n! (2/w)^n); that
  such an average is the integral over the plane is part of the specification, that the polynomial is the product of the three
  factors is `C84_factors`. The published formulas (JBJ 51, 52; SKL 62, 68) follow by `field` over the complex numbers.
* *Aperture kernels* (C83). Antiderivatives of polynomial times exponential, and of polynomial times arccos plus polynomial times
  the root; limits at the ends of the range; the E/B exchange follows from the brute-force sums.
* *Spin fields* (C38, C59-C62): complex algebra with polar forms; vector identities on the sphere.

## 4. What is not modelled

Floating point rounding (including the tolerances that exist only because of it), integer overflow;
memory management; logging; file formats and I/O except where section 3 says so (parameter files, the extensions and columns of
written two-point and three-point correlations); the command line scripts; check_config within `corr2`/`corr3`; pybind11 glue; performance heuristics that do not affect
results; `DeltaG` style conversions outside the 2-point classes; 3-point functions except where section 3 says so.
Simplifications of each modelled function are stated beside its definition.

## 5. Properties

<!-- table -->
| property | title | status | theorems | refutations |
|---|---|---|---|---|
| C01 | bin_slop=0 cross-correlation equals the brute-force pair count | proved | 2 in `PropsCount.v`, `PropsRefuted.v` | `C01_linear_edge_refuted`, `C01_log_wide_bins_refuted` |
| C02 | bin_slop=0 auto-correlation equals the brute-force count of unordered pairs | proved | 1 in `PropsCount.v`, `PropsRefuted.v` | `C02_min_sep_refuted` |
| C03 | Every pair is counted at most once, in exactly one bin, for any bin_slop | proved | 3 in `PropsRun.v` | - |
| C04 | bin_slop bounds the binning error of every single pair | proved | 3 in `PropsRun.v` | - |
| C05 | Only pairs within the slop of min_sep or max_sep can be gained or lost | proved | 1 in `PropsRun.v` | - |
| C06 | The result does not depend on the OpenMP schedule or number of threads | proved | 2 in `PropsRun.v` | - |
| C07 | The pair traversal always terminates without touching a missing child or an out-of-range bin | proved | 5 in `PropsRun.v` | - |
| C08 | Building a Field loses and duplicates no object | proved | 3 in `PropsTree.v` | - |
| C09 | Cell size bounds the distance of every member to the cell centre | proved | 4 in `PropsTree.v` | - |
| C10 | Every split is proper, so tree building terminates | proved | 3 in `PropsTree.v` | - |
| C11 | brute=True counts every pair by its own separation | proved | 3 in `PropsCount.v` | - |
| C12 | Periodic metric is the shortest distance over all images and the tree result is exact for it | proved | 3 in `PropsCount.v` | - |
| C13 | Rlens metric is r1*sin(theta) and its pruning never loses a pair | proved | 2 in `PropsCount.v` | - |
| C14 | Arc metric bins pairs by the angle on the sky, up to a bounded excess | proved | 6 in `PropsArc.v` | `C14_3d_obtuse_refuted`, `C14_sphere_refuted`, `C14_3d_auto_refuted` |
| C15 | count_near returns exactly the number of objects within sep | proved | 3 in `PropsNear.v` | `C15_wide_angle_refuted`, `C15_independent_of_min_size_refuted` |
| C16 | get_near returns exactly the indices of objects within sep | proved | 4 in `PropsNear.v` | `C16_negative_weights_refuted` |
| C17 | With MPI every patch pair is computed on exactly one rank | proved | 3 in `PropsPatch.v` | - |
| C18 | Splitting catalogs into patches does not change the total | proved | 6 in `PropsPatch.v` | `C18_sphere_refuted` |
| C19 | NN tot is the total weight of all pairs, whatever the patches | proved | 3 in `PropsPatch.v` | `C19_cross_forced_skip_refuted` |
| C20 | Correlation results add: += and initialize=False accumulate independent runs | proved | 10 in `PropsCorr.v`, `PropsMpiAcc.v` | `C20_mpi_initialize_refuted` |
| C21 | Jackknife sample i uses exactly the pairs not involving patch i | proved | 5 in `PropsCov.v`, `PropsCov2.v` | - |
| C22 | Bootstrap pair multiplicities follow the resampled patch list | proved | 7 in `PropsCov.v` | - |
| C23 | Estimated covariance matrices are symmetric (Hermitian) positive semi-definite | proved | 8 in `PropsCov2.v` | - |
| C24 | MPI computation of the covariance design matrix equals the serial one | proved | 2 in `PropsCov2.v` | `C24_nn_empty_row_refuted` |
| C25 | calculateXi implements the documented estimators | proved | 5 in `PropsCorr.v` | - |
| C26 | Binning parameters are completed consistently | proved | 4 in `PropsBin.v` | `C26_linear_min_sep_nonneg_refuted` |
| C27 | A configuration value given as keyword overrides the config dict | proved | 4 in `PropsConfig.v` | `C27_config_alias_refuted` |
| C28 | make_minimal_config followed by defaults restoration is lossless | proved | 1 in `PropsConfig.v` | `C28_identical_refuted` |
| C29 | The field cache is a correct bounded LRU memo | proved | 3 in `PropsLRU.v` | `C29_zero_size_refuted` |
| C30 | k-means assignment gives each object its nearest centre | proved | 3 in `PropsKM.v` | - |
| C31 | Per-patch loading selects the same partition as direct assignment | proved | 4 in `PropsKM.v` | `C31_ties_refuted` |
| C32 | Tree-based k-means initialisation fills every centre exactly once | proved | 5 in `PropsKM.v` | `C32_draw_one_refuted` |
| C33 | sample_pairs returns genuine distinct pairs in the range | proved | 4 in `PropsSampler.v` | `C33_refuted`, `C33_unaligned_refuted` |
| C34 | Random selection without replacement is valid | proved | 2 in `PropsSampler.v` | - |
| C35 | Variance combined over catalogs equals the variance of the combined catalog | proved | 3 in `PropsCat.v` | - |
| C36 | Catalog weights honour flags, NaNs and zero weights | proved | 6 in `PropsCat.v` | `C36_nan_wpos_refuted` |
| C37 | get_patches partitions the catalog | proved | 1 in `PropsPatch.v` | - |
| C38 | Projection of spin-s values: meaning and rotation invariance | proved | 5 in `PropsSpin.v` | - |
| C39 | A skipped pair of patches really has no pair in range | proved | 4 in `PropsPatch.v` | `C39_sphere_refuted` |
| C40 | patch_method='local' counts the same pairs as 'global' | proved | 3 in `PropsLocal.v` | `C40_local_3d_refuted`, `C40_local_periodic_refuted` |
| C41 | min_rpar/max_rpar select the pairs with rpar in range, up to Delta^2/D | proved | 2 in `PropsRpar.v` | `C41_euclid_refuted`, `C41_rlens_refuted`, `C41_auto_orientation_refuted` |
| C42 | npairs counts every positive-weight pair and no out-of-bin pair; zero-weight pairs may be missed | proved | 1 in `PropsRefuted.v` | `C42_refuted` |
| C43 | meanr and meanlogr are weighted means of separations in the bin | proved | 3 in `PropsMean.v` | - |
| C44 | Separation units rescale results consistently | proved | 2 in `PropsBin.v` | `C44_linear_slop_refuted` |
| C45 | min_size/max_size chosen for the tree never break the bin_slop guarantee | proved | 2 in `PropsRun.v` | - |
| C46 | Selection of list-valued config items is positional and total | proved | 6 in `PropsConfig.v` | - |
| C47 | KK/NK scalar correlations with bin_slop=0 equal the direct sum | proved | 1 in `PropsCount.v` | - |
| C48 | Result of an accumulation is unaffected by object order and duplicates of the tree | proved | 2 in `PropsCount.v` | - |
| C49 | The number and size of the top-level cells of a Field are bounded by max_top and max_size | proved | 2 in `PropsTree.v` | - |
| C50 | xi recomputed from all patch pairs equals calculateXi | proved | 1 in `PropsCov2.v` | - |
| C51 | The total arrays are the sum of the stored patch-pair results | proved | 4 in `PropsAccum.v`, `PropsCov2.v` | `C51_repeated_refuted` |
| C52 | key = value lines and .params files are read as written | proved | 5 in `PropsParams.v` | - |
| C53 | Catalog.select gives the catalog of the selected rows | proved | 2 in `PropsCat.v` | `C53_select_sumw_refuted` |
| C54 | Catalog.combine keeps all rows of all catalogs | proved | 1 in `PropsCat.v` | `C54_combine_refuted` |
| C55 | first_row, last_row, every_nth select the documented rows | proved | 1 in `PropsCat.v` | - |
| C56 | A k-means iteration moves each centre to the mean of the objects nearest to it and never increases the inertia | proved | 4 in `PropsKM2.v` | - |
| C57 | When patches can end up without objects | proved | 1 in `PropsKM2.v` | `C57_never_empty_refuted` |
| C58 | Random and k-means++ starting centres are positions of different objects | proved | 4 in `PropsKMPP.v` | `C58_kmpp_origin_refuted` |
| C59 | Complex correlation functions equal the brute-force sums when angle_slop = 0 | proved | 5 in `PropsSpin.v` | - |
| C60 | Which parts of a shear auto-correlation are well defined | proved | 1 in `PropsSpin.v` | `C60_xip_im_refuted` |
| C61 | Shear correlations on the sphere use great-circle components and are rotation invariant | proved | 5 in `PropsSphere.v` | - |
| C62 | Parallel transport when a cell averages a spin field on the sphere | proved | 2 in `PropsSphere.v` | `C62_shear_refuted`, `C62_units_refuted` |
| C63 | What angle_slop bounds | proved | 3 in `PropsAngle.v` | `C63_radians_refuted` |
| C64 | bin_type='TwoD': pairs are counted in the pixel of their separation vector | proved | 4 in `PropsTwoD.v` | `C64_meanr_refuted`, `C64_minsep_refuted`, `C64_edge_refuted` |
| C65 | bin_type='LogRUV', bin_slop=0: the three-point auto-correlation counts every triangle once, in its bin | proved | 4 in `PropsTri.v`, `PropsTri2.v`, `PropsTri3.v` | `C65_minv_refuted` |
| C66 | bin_type='LogRUV', bin_slop=0: three-point cross-correlations are exact for every value of 'ordered' | proved | 4 in `PropsTri.v`, `PropsTri2.v`, `PropsTri3.v` | `C66_tie_refuted` |
| C67 | Three-point sums are invariant under rotations and shifts; a reflection exchanges v and -v | proved | 3 in `PropsTri2.v` | - |
| C68 | Three-point processing by patches gives the sums of the unpatched catalog | proved | 9 in `PropsPatch3.v`, `PropsPatch3Ex.v` | `C68_periodic_refuted` |
| C69 | Three-point patch_method='local' | proved | 5 in `PropsLocal3.v`, `PropsPatch3Ex.v` | `C69_tot_refuted` |
| C70 | Stored three-point results: total and jackknife | proved | 4 in `PropsAccum3.v`, `PropsPatch3.v`, `PropsPatch3Ex.v` | `C70_repeated_refuted` |
| C71 | LogMultipole auto-correlation: counts and monopole | proved | 2 in `PropsMulti.v`, `PropsMultiEx.v` | `C71_coincident_refuted` |
| C72 | LogMultipole auto-correlation: sides and all multipoles | proved | 2 in `PropsMulti.v` | - |
| C73 | LogMultipole cross-correlations | proved | 8 in `PropsMulti.v`, `PropsMultiEx.v` | `C73_logd3_refuted`, `C73_periodic_refuted` |
| C74 | The multipole traversal finishes | proved | 3 in `PropsMultiEx.v` | - |
| C75 | Compensated count-value estimate and its jackknife | proved | 7 in `PropsComp.v`, `PropsComp2.v` | `C75_imag_refuted`, `C75_dummy_refuted`, `C75_raw_varxi_refuted`, `C75_shot_refuted`, `C75_reset_refuted`, `C75_sample_refuted`, `C75_unsplit_refuted` |
| C76 | Write and read round trip of a two-point correlation | proved | 3 in `PropsIO2.v` | `C76_compensated_refuted`, `C76_shot_refuted`, `C76_ascii_cov_refuted`, `C76_onebin_refuted`, `C76_reprocess_refuted`, `C76_stale_refuted` |
| C77 | calculateZeta of three-point counts: estimate, jackknife rows, variance, bootstrap triples | proved | 5 in `PropsZeta.v`, `PropsZeta2.v`, `PropsZeta3.v`, `PropsZeta4.v` | `C77_unpatched_refuted` |
| C78 | calculateZeta compared with the Szapudi-Szalay estimator | proved | 4 in `PropsSS.v` | `C78_szapudi_refuted`, `C78_ordered_refuted` |
| C79 | LogSAS three-point sums with bin_slop=0 are the brute-force sums over apexes | proved | 6 in `PropsSas.v`, `PropsSas2.v`, `PropsSas3.v`, `PropsSas4.v` | `C79_minphi_refuted`, `C79_maxphi_refuted`, `C79_obtuse_refuted`, `C79_ordered3d_refuted`, `C79_collinear_refuted` |
| C80 | Three-point shear sums (GGG) with bin_slop=0 are the brute-force sums over triangles | proved | 8 in `PropsGGG.v` | - |
| C81 | Symmetries of the three-point shear correlation | proved | 5 in `PropsGGG2.v` | - |
| C82 | The x projection used by the GGG multipole method | proved | 2 in `PropsGGG3.v` | `C82_threed_refuted` |
| C83 | Aperture statistics: kernels, E/B separation, units | proved | 17 in `PropsAper.v`, `PropsAper2.v`, `PropsAper3.v`, `PropsAperVar.v`, `PropsMap3h.v`, `PropsNorm.v` | `C83_linear_refuted`, `C83_nap_documented_refuted`, `C83_norm_zero_refuted` |
| C84 | Aperture mass skewness: the T functions, permutations, combinations, variance and symmetries | proved | 16 in `PropsMap3.v`, `PropsMap3b.v`, `PropsMap3c.v`, `PropsMap3d.v`, `PropsMap3e.v`, `PropsMap3f.v`, `PropsMap3h.v` | `C84_mixed_refuted` |
| C85 | Three-point binning parameters: the completed u, v and phi ranges, slops and units | proved | 8 in `PropsBin3.v`, `PropsBin3b.v` | `C85_minv_refuted`, `C85_phi_size_refuted` |
| C86 | LogMultipole GGG: the natural components are sums over triangles | proved | 7 in `PropsMultiG.v`, `PropsMultiGEx.v` | - |
| C87 | Three-point finalize: weighted means, units, chords turned into arcs, nominal values of empty bins | proved | 6 in `PropsFin3.v` | `C87_phi_units_refuted`, `C87_mean_arc_refuted` |
| C88 | toSAS: weights, numbers, projections and patch results of the LogSAS object made from multipoles | proved | 16 in `PropsToSas.v`, `PropsToSasEx.v` | `C88_negative_refuted`, `C88_side_refuted` |
| C89 | Rperp metric: the separation, exact counts and line-of-sight limits | proved | 6 in `PropsRperp.v`, `PropsRperpRpar.v` | `C89_oldrperp_refuted` |
| C90 | k-means with alt=True: what an iteration does, and that iterations need not converge | proved | 1 in `PropsKMAlt.v` | `C90_converges_refuted` |
| C91 | corr2: from the input files to the columns of the NN output file | proved | 8 in `PropsExec2.v`, `PropsExec2Ex.v` | `C91_patched_files_refuted` |
| C92 | estimate_multi_cov: blocks, exceptions and derived data vectors | proved | 8 in `PropsMultiCov.v`, `PropsMultiCov2.v` | `C92_sample_own_refuted` |
| C93 | A copy of a correlation object and its original | proved | 4 in `PropsCopy.v` | `C93_shared_results_refuted` |
| C94 | Patches with save_patch_dir and low_mem hold the rows of the catalog | proved | 2 in `PropsSave.v`, `PropsSaveEx.v` | `C94_zero_weight_refuted`, `C94_units_refuted`, `C94_eval_refuted`, `C94_nan_refuted`, `C94_same_names_refuted`, `C94_gap_refuted` |
| C95 | Shot-noise variances of xi and zeta | proved | 15 in `PropsShot.v`, `PropsShot3.v`, `PropsShotG.v` | `C95_lens_weights_refuted`, `C95_vark_option_refuted`, `C95_kkk_sas_refuted` |
| C96 | Periodic metric: moving objects by whole periods | proved | 5 in `PropsPer.v` | `C96_shear_refuted` |
| C97 | Patch centres | proved | 5 in `PropsCenters.v` | `C97_antipodal_refuted`, `C97_weightless_refuted`, `C97_reassign_refuted`, `C97_unit_3d_refuted` |
| C98 | What corr2 and corr3 compute and write | proved | 4 in `PropsDriver.v` | `C98_norm_refuted`, `C98_rand2_refuted` |
| C99 | A three-point correlation read from its file has the values that were written | proved | 6 in `PropsCorr3IO.v` | `C99_stale_refuted`, `C99_ascii_zero_refuted` |
<!-- end table -->

## 6. Print Assumptions

Every theorem of section 5, grouped by the axioms that `Print Assumptions` lists for it
(generated from the build by `tools/mkdesign.py`):

<!-- assumptions -->
* **No axioms** (44 theorems): C36_flag_bits, C55_rows, C97_npatch, C27_precedence, C27_accepts, C27_checked, C27_alias, C27_config_alias_refuted, C28_roundtrip, C28_identical_refuted, C46_list, C46_list_negative, C46_out_of_range, C46_scalar, C46_missing, C46_get, C21_jackknife_pairs, C21_jackknife_rows, C22_bootstrap, C22_bootstrap_one_sided, C22_marked, C22_marked_one_sided, C22_sample, C22_sample_partition, C22_pairs_stored, C98_corr2, C98_inputs, C98_alone, C98_corr3, C98_norm_refuted, C98_rand2_refuted, C29_refines_lru, C29_values_correct, C29_most_recent, C29_zero_size_refuted, C16_no_repeats, C52_parse_variable, C52_no_equals, C52_unclosed, C52_empty_value, C52_file, C37_get_patches_partition, C77_bootstrap, C77_marked
* `ClassicalDedekindReals.sig_forall_dec` (2 theorems): C17_auto_one_rank, C17_cross_one_rank
* `ClassicalDedekindReals.sig_forall_dec`, `FunctionalExtensionality.functional_extensionality_dep` (63 theorems): C85_u, C85_v, C36_rows, C36_rows_wpos, C36_keep, C36_sumw, C36_error, C36_nan_wpos_refuted, C53_constructed, C53_select, C53_select_sumw_refuted, C54_combine, C54_combine_refuted, C35_single, C35_combined, C35_two_components, C20_iadd_adds, C20_iadd_commutative, C20_iadd_associative, C20_iadd_identity, C20_sum_is_repeated_iadd, C25_calculateXi_simple, C25_calculateXi_landy_szalay, C25_calculateXi_one_random, C25_empty_random_bin, C25_error_iff, C23_jackknife, C23_bootstrap, C23_sample, C23_shift_jackknife, C23_shift_bootstrap, C23_shift_sample, C23_constant_rows, C23_shot, C24_kk, C84_eight, C84_factors, C92_blocks, C92_own_block, C92_errors, C92_sample_blocks, C92_linear, C92_shot, C92_estimate_cov, C83_norm_scale, C83_norm_zero_refuted, C70_zeta_scale, C34_selection, C34_terminates, C94_unsaved, C94_saved, C94_zero_weight_refuted, C94_units_refuted, C94_eval_refuted, C94_nan_refuted, C94_same_names_refuted, C94_gap_refuted, C95_uniform_var, C95_nn_rescaled, C95_nn_unit, C95_uniform_varg, C10_split_proper, C77_errors
* `ClassicalDedekindReals.sig_forall_dec`, `ClassicalDedekindReals.sig_not_dec`, `FunctionalExtensionality.functional_extensionality_dep` (99 theorems): C63_sine, C85_phi, C85_phi_units, C97_given, C97_error, C97_best, C97_round_trip, C97_antipodal_refuted, C97_weightless_refuted, C97_reassign_refuted, C97_unit_3d_refuted, C99_kkk_ggg, C99_nnn, C99_from_file_kkk_ggg, C99_from_file_nnn, C99_random_columns, C99_multipole, C99_stale_refuted, C99_ascii_zero_refuted, C24_nn, C24_nn_empty_row_refuted, C50_all_pairs_xi, C80_components, C80_axis_flat, C80_axis_sky, C81_relabel, C82_flat, C82_threed_refuted, C30_assign, C30_assign_exists, C30_quick_assign, C31_select, C31_covered, C31_partition, C31_ties_refuted, C31_kmeans_agrees, C32_each_once, C32_centers, C32_defined, C32_draw_one_refuted, C32_cells, C32_few, C56_step, C56_descent, C56_refine, C56_step_labels, C57_never_empty_refuted, C57_moved_only_if_empty, C90_step, C90_converges_refuted, C58_random, C58_random_defined, C58_kmpp, C58_kmpp_no_exception, C58_kmpp_origin_refuted, C84_branches, C84_T, C84_turned, C84_perms, C84_variance, C84_mixed_refuted, C84_swap, C84_first, C84_turn45, C84_parity, C84_jacobian, C84_jacobian_sas, C84_weight, C92_objects, C92_sample_own_refuted, C16_memory_safe, C15_count_near, C16_get_near, C16_get_near_min_size, C15_count_near_min_size, C15_independent_of_min_size_refuted, C16_negative_weights_refuted, C83_norm, C17_local_one_rank, C96_separation, C45_minsize_slack, C45_grouping_moves_little, C62_spin0, C62_units_refuted, C38_flat, C88_kernel, C88_zeta, C88_results_k, C08_objects_preserved, C08_cell_sums, C08_field_totals, C09_size_bounds_members, C09_exact_for_min_size_0, C09_size_attained, C09_field_size, C10_build_total, C10_depth_bounded, C49_top_level_count, C49_top_level_size
* `ClassicalDedekindReals.sig_forall_dec`, `ClassicalDedekindReals.sig_not_dec`, `Classical_Prop.classic`, `FunctionalExtensionality.functional_extensionality_dep` (328 theorems): C51_accumulated, C51_repeated_refuted, C70_accumulated, C70_repeated_refuted, C63_cross_direction, C63_auto_direction, C63_radians_refuted, C83_eb, C83_null, C83_tophat, C83_tophat_outer, C83_lens, C83_integral, C83_auto_eb, C83_cross_eb, C83_integral_sums, C83_units, C83_nmap_turn, C83_nmap_units, C83_linear_refuted, C83_variance, C83_variance_lens, C14_sphere_distance, C14_sphere_cross, C14_sphere_auto, C14_3d_distance, C14_3d_obtuse_refuted, C14_3d_cross, C14_3d_auto, C14_sphere_refuted, C14_3d_auto_refuted, C26_completed, C26_linear_min_sep_nonneg_refuted, C26_valid, C26_tiling, C26_tiling_2d, C44_log, C44_linear_edges, C44_linear_slop_refuted, C85_sas, C85_ruv, C85_minv, C85_slop, C85_minv_refuted, C85_phi_size_refuted, C75_compensated, C75_estimate, C75_jackknife, C75_all_pairs, C75_catalogs, C75_varxi_unpatched, C75_varxi_jackknife, C75_imag_refuted, C75_dummy_refuted, C75_raw_varxi_refuted, C75_shot_refuted, C75_reset_refuted, C75_sample_refuted, C75_unsplit_refuted, C93_copy, C93_arrays, C93_quiet, C93_reprocessed, C93_shared_results_refuted, C20_runs_consistent, C20_cross_accumulates, C20_auto_accumulates, C01_cross_exact, C01_cross_exact_weights, C02_auto_exact, C48_cross_row_order, C48_auto_row_order, C12_periodic_distance, C12_periodic_cross_exact, C12_periodic_auto_exact, C13_rlens_distance, C13_rlens_cross_exact, C11_brute_auto, C11_brute_auto_euclid, C11_brute_cross, C47_scalar_sums, C21_jackknife_auto, C21_jackknife_cross, C51_results_sum, C51_auto_and_cross, C51_results_sum_mpi, C21_jackknife_auto_mpi, C91_auto, C91_cross, C91_no_randoms, C91_runs, C91_type_error, C91_missing_input, C91_numbers_differ, C91_writes, C91_patched_files_refuted, C87_means, C87_empty_ruv, C87_empty_sas, C87_phi_units_refuted, C87_sphere, C87_mean_arc_refuted, C87_multipole, C87_multipole_means, C80_auto, C80_cross12, C80_cross, C80_exists, C80_mean, C81_turn45, C81_plane, C81_sky, C81_parity, C82_sphere, C76_roundtrip, C76_exact, C76_jackknife, C76_compensated_refuted, C76_shot_refuted, C76_ascii_cov_refuted, C76_onebin_refuted, C76_reprocess_refuted, C76_stale_refuted, C40_local_cross, C40_local_auto, C40_local_tot, C40_local_3d_refuted, C40_local_periodic_refuted, C69_auto, C69_cross12, C69_cross, C84_triangle, C84_weight_sas, C83_lens_sums, C83_nap_documented_refuted, C43_meanr_in_bin_cross, C43_meanr_in_bin_auto, C43_edges, C20_mpi_accumulates, C20_mpi_tot, C20_mpi_initialize_refuted, C71_auto_counts, C71_auto_weight0, C72_auto_sides, C72_auto_phases, C73_cross12_counts, C73_cross12_weight0, C73_cross12_sides, C73_cross12_phases, C73_cross_counts, C73_cross_weight0, C73_cross_sides, C73_cross_phases, C74_one_list, C74_two_lists, C74_runs_exist, C73_logd3_refuted, C71_coincident_refuted, C73_periodic_refuted, C86_auto, C86_cross12, C86_cross, C86_base_auto, C86_base_cross12, C86_base_cross, C86_runs_exist, C15_sphere_angle, C15_wide_angle_refuted, C39_skip_sound_euclid, C39_skip_sound_periodic, C39_skip_sound_rlens, C39_early_exit_sound_euclid, C39_sphere_refuted, C18_auto_patches, C18_cross_patches, C18_auto_patches_mpi, C18_cross_patches_mpi, C18_periodic_auto_patches, C18_same_as_unpatched, C18_sphere_refuted, C19_auto_patches, C19_auto_patches_mpi, C19_cross_patches, C19_cross_forced_skip_refuted, C68_auto, C68_auto_tot, C68_cross12, C68_cross, C68_cross_tot, C68_mpi, C68_skip, C68_exists, C70_results, C70_jackknife, C69_local_tot, C68_mpi_exists, C69_exists, C69_tot_refuted, C68_periodic_refuted, C96_cross, C96_auto, C96_shear_raw, C96_shear_inner, C96_shear_refuted, C01_linear_edge_refuted, C01_log_wide_bins_refuted, C02_min_sep_refuted, C42_refuted, C42_npairs_bounds, C41_cross_rpar, C41_auto_rpar, C41_euclid_refuted, C41_rlens_refuted, C41_auto_orientation_refuted, C89_distance, C89_cross_exact, C89_auto_exact, C89_oldrperp_refuted, C89_old_large, C89_cross_rpar, C89_auto_rpar, C03_cross_each_pair_once, C03_auto_each_pair_once, C03_total_bounded, C04_cross_slop, C04_auto_slop, C04_periodic_slop, C05_only_borderline_pairs, C06_schedule_independent_auto, C06_schedule_independent_cross, C07_no_null_child_auto, C07_no_null_child_cross, C07_bin_index_in_range_auto, C07_bin_index_in_range_cross, C07_runs_exist, C78_szapudi, C78_excess, C78_third, C78_estimate, C78_szapudi_refuted, C78_ordered_refuted, C33_brute, C33_slop0, C33_complete, C33_refuted, C33_terminates, C33_unaligned_refuted, C79_auto, C79_cross12, C79_cross, C79_cross_ordered, C79_exists, C79_ordered_sum, C79_minphi_refuted, C79_maxphi_refuted, C79_obtuse_refuted, C79_ordered3d_refuted, C79_collinear_refuted, C95_kk_noise, C95_kk_exact, C95_kk_auto_noise, C95_kk_auto_exact, C95_nk_noise, C95_nk_lenses, C95_rescaled, C95_lens_weights_refuted, C95_vark_option_refuted, C95_kkk_ruv, C95_kkk_sas, C95_kkk_sas_refuted, C95_gg_exact, C95_kg_exact, C61_project, C61_cross_shear, C61_auto_shear, C61_rotation, C61_cross_rotation, C62_transport, C62_shear_refuted, C38_unit, C38_unit_flat, C38_rotation, C38_gg, C59_cross_shear, C59_cross_spin, C59_auto_shear, C59_cross_counts, C59_auto_counts, C60_xip_im_refuted, C60_auto_rotation, C88_weight, C88_sides, C88_ntri, C88_total, C88_results, C88_results_g, C88_gamma, C88_gamma_similar, C88_run_auto, C88_run_cross12, C88_run_cross, C88_run_gamma, C88_run_total, C88_negative_refuted, C88_side_refuted, C65_auto_exact, C66_cross12, C66_cross, C65_auto_abs, C65_exists, C66_exists, C67_plane, C67_rotation, C67_parity, C66_ordered_sum, C65_edges, C66_tie_refuted, C65_minv_refuted, C64_cross_exact, C64_auto_exact, C64_slop, C64_runs_exist, C64_meanr_refuted, C64_minsep_refuted, C64_edge_refuted, C77_jackknife, C77_unpatched, C77_unpatched_refuted
<!-- end assumptions -->
