# Formal model of average-minimum-distance: design

Everything lives in `rocq/theories` (logical prefix `Verif`, Coq 8.16.1, standard
library only).  The Python sources are read as text; nothing in `/repo` is built,
run or changed.

## 1. How the code is modelled

* One Coq function per Python function, branch by branch.  Exceptions are values
  (`result`/`option` outcomes), unchecked numba array accesses are checked reads that
  give an explicit out-of-bounds outcome, `while` loops take fuel with an explicit
  out-of-fuel outcome, and termination is a separate theorem.
* Each definition carries a comment with the file and lines it models and any
  simplification.
* Numbers.  Floating-point numbers are idealised as Coq's real numbers `R` wherever
  a theorem concerns geometry.  For C74, C75 and C76 the search, AMD, PDD, their finite versions and EMD are run again with rounded
  operations (`num_of`), with sums and scalar products in any order; binary64 without overflow is one instance (`RoundBinary.v`, also with fused operations and reciprocals).  Pure order-manipulating code (merging, collapsing,
  sorting, selecting neighbours) is modelled over any decidable total order where
  that is possible.  The EMD solver works on machine integers in the code (`int64`);
  it is modelled over `Z` (no overflow) and, for C73, again with 64-bit integers which wrap around.  Strings are Coq `string`s over ASCII.
* External libraries (numpy sorting/partition, scikit-learn, scipy, joblib, gemmi,
  ase, pymatgen, ccdc) are not modelled internally: they are function parameters
  with a stated contract, or are replaced by a sort-based reference function.
* Layering: `*Model.v` (model), `*Spec.v` (independent specification), `*Proofs.v`
  (lemmas), `Props_*.v` (final theorems named after the property, followed by
  concrete examples and `Print Assumptions`).

## 2. Trusted base

* The Coq kernel (8.16.1), including `vm_compute` where examples use it.
* Axioms of the standard library's classical real numbers, for theorems about `R`:
  `ClassicalDedekindReals.sig_forall_dec`, `ClassicalDedekindReals.sig_not_dec`,
  `FunctionalExtensionality.functional_extensionality_dep`; also `Classical_Prop.classic`
  where the trigonometric lemmas of the library use it (C24, C52, C53, C62, C65, C66, C80, C83) or its logarithm (binary64 in C74, C75, C76, C79, C80, C81, C82, C83; roots in C85; C86 to C88, C90, C91).  Theorems over `Z`,
  `nat`, lists and strings are closed under the global context.
* No axiom, parameter, functor or module type is declared in this development.
* The table in section 5 lists, per theorem, what `Print Assumptions` reports.
* Faithfulness of the hand-written model to the Python text (citations in comments).

## 3. What is modelled

| source (src/amd) | model | simplified |
|---|---|---|
| `_nearest_neighbors.py` lattice generator and caches | `LatticeModel.v`, `CacheModel.v` | exact integers |
| `_nearest_neighbors.py` search and merging | `MergeModel.v`, `NNModel.v` | real numbers; partition by sorting |
| `calculate.py` | `CalcModel.v`, `CollapseModel.v` | real numbers; types of arrays |
| `_nearest_neighbors.py` `nearest_neighbors_data` | `NNDataModel.v` | `np.argpartition` and `np.argsort` are parameters with the contracts of `SpecData.v`; index arrays are unbounded naturals |
| `_nearest_neighbors.py` `nearest_neighbors_minval`, `calculate.py` `PDD_reconstructable` | `MinvalModel.v` | real numbers; the KD-tree query is a parameter with the contract of `SpecMinval.v`; the type check left out |
| the same with rounding: `nearest_neighbors`, `AMD`, `PDD` | `RoundModel.v`, `RoundBinary.v` | the same definitions over an arithmetic with relative errors; sums and scalar products are fixed functions which add in any order, fused or not (numpy, BLAS, `fastmath`); no overflow |
| the same with rounding: `_emd.py`, `compare.py` `EMD` | `RoundEmdModel.v` | 64-bit integers; conversion to int64 is a parameter, scalar products are those of the arithmetic, with the contracts of `SpecEmd64.v` and `SpecRound.v`; no overflow of floating-point numbers |
| the same with rounding: `_expand_asym_unit` and the end of the converters, `np.mod` | `SitesModel.v`, `RoundSitesModel.v` | `np.dot` and `np.matmul` are scalar products of the arithmetic; `np.mod(x, 1)` as numpy does it (exact `fmod`, then 1 is added to a negative remainder); no overflow |
| the whole way from contents of files to a distance | `compare_contents` in `Props_ReadEmd.v`, `compare_entries` in `Props_ParEmd.v` | the composition of the models with rounding |
| the same with rounding: `cellpar_to_cell`, `cellpar_to_cell_2D` | `RoundCellModel.v` | the order of the operations is that of the source, not one that `fastmath` may choose; `np.deg2rad`, `np.cos` and `np.sin` are parameters with the contract of `SpecRoundCell.v`; no overflow |
| `calculate.py` `PPC`, `AMD_estimate` | `PPCModel.v` | real numbers; `np.linalg.det` is the determinant of `SpecDet.v`; an empty motif left out |
| `_emd.py` | `EmdModel.v`, with 64-bit integers `Emd64Model.v` | integers without overflow in the former; the conversion to int64 is a parameter in the latter; the rounding of weights is a parameter with its contract; the default metric, others in `MetricModel.v` (functions of two rows; minkowski of integer order) |
| `compare.py`, `cli.py` | `CompareModel.v`, `CompareTop.v` | joblib, scikit-learn, scipy and numpy selection as functions meeting their documentation; negative n and k left out |
| `io.py` text parsers | `TextModel.v` | ASCII; exact decimals |
| `io.py` `memoize`, `_parse_sitesyms` | `SymCacheModel.v` | arrays as objects in a list; one thread |
| `io.py` duplicate sites and expansion | `SitesModel.v` | real numbers; `np.mod(_, 1)` is the fractional part; types are numbers, not bytes |
| `io.py` converters of gemmi, ase and pymatgen blocks | `BlocksModel.v` | names left out; tables of space groups are parameters; infinite or NaN coordinates in ase and pymatgen left out; the three documented values of `disorder` |
| `io.py` converters of ase.Atoms, pymatgen.Structure, ccdc entries and crystals; heaviest component and molecular centres | `ObjectsModel.v` | objects are what the libraries give for them; `get_basis`, the conventional cell, components, asymmetric unit and packing are parameters; names left out; infinite weights left out; TypeError stands for numba's TypingError |
| `io.py` `_Reader`, `CifReader`, `CSDReader` | `ReaderModel.v` | backends (parsing files, converting items, the CSD search) are parameters; warnings are a list, with the global filter; tqdm left out |
| `utils.py` | `UtilsModel.v` | real numbers; `np.random.uniform` reads a sequence of draws from [0, 1) |
| `periodicset.py` lines 110-182 | `PSetModel.v` | real numbers; `np.linalg.inv` is a parameter; number of columns of an empty motif left out; `__str__` and `__repr__` not modelled |
| `reconstruct.py` | `ReconModel.v` | real numbers; the KD-tree query and `np.linalg.inv` are parameters; loops over the cloud take a bound on the number of layers |

Not modelled:

* IEEE rounding and `fastmath` reorderings outside of C74 to C76, C79 to C83, C86 to C88, C90 and C91, NaN and infinities (except as results
  of parsing); floating-point overflow; overflow of int64 outside of `_emd.py`.
* File system access, the CIF grammar (gemmi/ase/pymatgen/pycodcif parse blocks),
  the CSD API, pandas/tqdm/joblib internals, numba compilation, plotting,
  pickling.

## 4. Properties and plan

(N) = the nearest neighbour model `NN`, (E) = the solver model `Emd`.

| id | modelled how | proof plan |
|---|---|---|
| C01 | generator state = table of next heights, recursion over the odometer; reflection as list of sign changes | invariant on heights table: for each prefix the height is the least not yet emitted; layer = sphere shell |
| C02 | caches as finite maps, `tee` as index into a shared stream | invariant over arbitrary operation histories: each cached iterator is at its initial position |
| C03 | pointer loops over lists with checked indexing | invariant: output = first n of merged list |
| C04 | `nearest_neighbors` over R, sort-based partition | loop invariant: rows = distances of NoDup index lists |
| C05 | same | stepping argument: a closer point beyond the layer gives a closer point in the layer; half-diagonal dominance of the Gram matrix; `spread` trades dominance for points outside of the cell |
| C06 | same | refuted by a skewed 2D cell; partial: C04 soundness (upper bound) + C05 |
| C07 | same | refuted by a 1D motif outside of the cell; partial: spec-level invariance, hence code-level when both choices are inside a good cell |
| C08 | `nearest_neighbors_data` | simulation with `nearest_neighbors` + index invariant |
| C09 | fuel version | for a cell with inverse, shells eventually farther than any radius |
| C10, C11, C12 | same model, all inputs | all decisions depend on squared distances / dot products only: simulation |
| C13, C14, C15, C18, C19, C21 | `AMD`, `PDD`, `PDD_to_AMD` over R on top of (N) | algebra of weighted sums over partitions; sorting lemmas |
| C16 | `_collapse_into_groups` on a boolean matrix | induction on the scan |
| C17, C20 | same | refuted by chains; partial: C16 |
| C22 | `AMD_finite`, `PDD_finite` | sorting lemmas, distances |
| C23 | spec: k-th nearest distance over an index type | counting argument; refuted without half-dominance: AMD as computed jumps |
| C24 | closed formula over R | recursion for the ball; the determinant as the only alternating form, so multiplicative (`DetProofs.v`) |
| C25, C26, C27 | (E): all functions of `_emd.py` over Z with checked arrays | spanning-tree/thread invariant, weak duality |
| C28, C29, C33 | corollaries of C27 | |
| C30, C31 | spec over R | triangle inequality, gluing of plans |
| C32 | (E) | cycling/looping analysis: witness or conditional theorem |
| C34, C35, C36, C37, C38, C39 | compare layer over abstract EMD / metric | list index arithmetic, contracts of argpartition and kneighbors |
| C40, C41, C42, C50 | string functions over ASCII strings | structural induction over spellings |
| C43, C44 | reader as a transducer on converter outcomes | induction on the item list |
| C45, C46 | `_unique_sites`, `_expand_*` over R | induction; mod-1 arithmetic |
| C47, C48, C49 | option logic over site lists | induction |
| C51 | `diameter` over R | convexity |
| C52 | cell parameters over R with sin/cos/acos | trigonometry |
| C53 | retry loop over a stream of draws | refuted |
| C54 | elementwise boolean logic | refuted + partial (reflexive, symmetric) |
| C55, C56 | geometric kernels over R | algebra |
| C57 | `nearest_neighbors_minval` | loop invariant |
| C64 | `PDD_reconstructable` | single points, and an example by computation in Z |
| C65 | as C24 and (N) | points in a ball counted by Gram-Schmidt and slicing, up to a lower order term |
| C66 | (N) | a path of lattice points near the segment to a missed point crosses every shell |
| C67 | as C46, C47, C21 | an operation taking one image of a site to another permutes the points of the crystal; two expansions are permutations of one another |
| C68, C69 | SpecObjects `stays`, `molecule_used`, `heaviest`; as C47 | the filters of the converter are those of the specification; argmax invariant |
| C70 | SpecObjects `geometric_centre`, `mass_centre` | unique_sites as C45; carbon and oxygen as witness |
| C71 | SpecObjects `basis`, `symmetric`; as C67 | expansion of a basis is a permutation of the atoms; witnesses with inversion and centring |
| C72 | SpecObjects `sites_left` | asymmetric unit of all positions with multiplicity one is no asymmetric unit |
| C73 | SpecEmd64 `truncates`, `total_distance` | the invariant of the pivots bounds every entry by the sum of all costs; above it the first reduced costs are all positive after wrapping |
| C74 | SpecRound `float_like`, `representable`, `motif_within`, `decided` | the rounded search as a search by rounded keys; error of a key by half-dominance; the rank of a perturbed value; sums with relative errors; rounded Chebyshev tests decide as exact ones away from the tolerance |
| C75 | SpecRound `float_like`, `decided_finite` | counting below a threshold shows that sorting keeps rows close; then as C74 |
| C76 | SpecRound `emd_arithmetic`, `emd_size`, SpecEmd `emd_within` | the solver solves the truncated problem exactly; plans of the exact and the truncated problem are turned into each other at small cost |
| C77, C78 | SpecBlocks `group_name_tags`, `first_given`, `first_with`, `squeezed`, `pymatgen_names` | induction over tags; witnesses with tables of two groups |
| C79 | SpecCont `displaced` (bijection of motif points up to lattice vectors), `stands_for` (asymmetric unit), SpecEmd `coupling` | nearest distances under injections of index sets; plan following the points; C27 and C76 for the computed value |
| C80, C81 | SpecRoundSites `images_within`, `decided_sites`, `cell_size`, `inverse_within`, SpecCont `moved_by`, SpecRound `float_like` | error of an image coordinate; comparisons modulo 1 away from the tolerance; the loops of the two runs in step; rounded points are nearly in the cell (`spread_within`); continuity (C79) and C74 |
| C82 | SpecDeform `strained` (lengths of combinations of the cell vectors), `carried` (same fractional coordinates), `perturbed`, `cell_change`; SpecRoundSites `inverse_within` | nearest distances under injections with a monotone bound, both ways; AMD as average over motif points; plan following the points |
| C83 | SpecCell `has_parameters`, `lower_triangular`; SpecDeform `strained`; SpecRoundCell `trig_like`, `dominates` | angles of almost orthogonal cells are far from 0 and 180 degrees; errors of the entries, relative strain, C82 for the exact AMD of the two cells and C80 for the computed one |
| C84 | SpecRecon; SpecFound `determined`, `general_position`, `visible`, `unambiguous`, `oriented` | combinations and permutations are complete, the first shared distance is the length, intersections are complete (C55), whatever is found is a candidate; the inversion maps candidates to candidates; example by computation in Z |
| C85 | SpecMetric `metric_on`, `is_minkowski`, `row_metric`; SpecEmd | as C27 to C31 for any costs; powers are convex (Minkowski's inequality) |
| C86 | SpecRound, SpecEmd64, SpecEmd `emd_within`, SpecSymmetry `covered`, SpecCont `displaced` | `ReadRows.v`: each row read and searched with rounding is near the exact one; then as C76; C79 for the exact distance |
| C87 | as C86; SpecCell `has_parameters`, SpecDeform `strained`, `perturbed`, SpecRoundCell `trig_like` | the cell computed is a strain of the exact one (C83), rows change in proportion (C82), then `pdd_of_rows` and C76 |
| C88 | SpecEmd `is_chebyshev`, SpecCompare `has_shape`, `before`, `nearest_of`, `kneighbors_ok`; `nearly_nearest`, `rows_near` in Props_RoundAmd | rounded maxima of differences (RoundEmd `cheb_near`), AMDs of entries by C83, matrices filled as in C34; nearest neighbours by C37 for the rounded distance |
| C89 | `seen`, `public` in Props_SymCache; result compared with TextModel `parse_sitesyms`, which has no memory | invariant over histories: cached arrays have the parsed contents and no caller holds them |
| C90 | SpecCompare `has_shape`, SpecEmd `mx`, SpecCont `slack`; `filter_error` in Props_Filter | C87 and C88 with the exact bound of averages by plans (C30) and the average of a collapsed PDD (C15) |
| C91 | SpecCompare `has_shape`, `before`, SpecEmd `coupling`, `transport_cost`, `row_distance`; `least_cost`, `crystal_distance`, `emd_error` in Props_PddNear, `nearly_nearest` in Props_RoundAmd | C87 for each pair, with a common fuel for the finitely many pairs; C35 and C37 |

## 5. What Print Assumptions reports

* A: closed under the global context
* B: `functional_extensionality_dep`, `sig_forall_dec`, `sig_not_dec`
* C: `classic`, `functional_extensionality_dep`, `sig_forall_dec`, `sig_not_dec`
* D: `functional_extensionality_dep`, `sig_forall_dec`
* E: `sig_forall_dec`

Generated by `tools/mkassumptions.py` from the theorems in MANIFEST.json.

| theorem | file | assumptions |
|---|---|---|
| `C01_batch_is_shell` | Props_Lattice | A |
| `C01_every_vector_in_one_batch` | Props_Lattice | A |
| `C02_history_independent` | Props_Lattice | A |
| `C02_fresh_request` | Props_Lattice | A |
| `C03_merge_sorted_arrays` | Props_Merge | B |
| `C03_merge_with_indices` | Props_Merge | B |
| `C04_rows_are_distances` | Props_NN | B |
| `C04_no_error` | Props_NN | B |
| `C04_indices_are_points` | Props_NN | B |
| `C05_rows_are_nearest` | Props_NN | B |
| `C05_nearest_unique` | Props_NN | B |
| `C06_any_cell_refuted` | Props_NN | B |
| `C07_motif_representatives_refuted` | Props_NN | B |
| `C08_data` | Props_Data | B |
| `C08_returns` | Props_Data | B |
| `C09_terminates` | Props_NN | B |
| `C10_isometry_invariant` | Props_NN | B |
| `C10_amd_isometry` | Props_Inv | B |
| `C10_pdd_isometry` | Props_Inv | B |
| `C11_scaling` | Props_NN | B |
| `C11_proportional_sets` | Props_NN | B |
| `C11_amd_scaling` | Props_Inv | B |
| `C11_pdd_scaling` | Props_Inv | B |
| `C12_reordering` | Props_NN | B |
| `C12_amd_reordering` | Props_Inv | B |
| `C12_amd_reordering_asym` | Props_Inv | B |
| `C12_pdd_reordering` | Props_Inv | B |
| `C13_amd_monotone` | Props_Calc | B |
| `C13_amd_total` | Props_Calc | B |
| `C14_pdd_is_distribution` | Props_Calc | B |
| `C15_average_exact` | Props_Calc | B |
| `C15_average_close` | Props_Calc | B |
| `C15_collapsed_average_refuted` | Props_Calc | B |
| `C16_groups_partition_around_leaders` | Props_Collapse | A |
| `C16_group_diameter` | Props_Inv | B |
| `C17_group_members_pairwise_overlap_partial` | Props_Collapse | A |
| `C17_group_members_pairwise_overlap_refuted` | Props_Collapse | A |
| `C18_lexsorted` | Props_Calc | B |
| `C19_groups_identify_rows` | Props_Calc | B |
| `C20_collapse_order_refuted` | Props_Calc | B |
| `C20_separated_rows` | Props_Inv | B |
| `C21_asym_amd` | Props_Geo | B |
| `C21_asym_pdd_weights` | Props_Geo | B |
| `C21_asym_pdd` | Props_Geo | B |
| `C22_rows` | Props_Finite | B |
| `C22_distribution` | Props_Finite | B |
| `C22_average` | Props_Finite | B |
| `C22_isometry` | Props_Finite | B |
| `C22_reordering` | Props_Finite | B |
| `C23_nearest_continuous` | Props_Geo | B |
| `C23_amd_continuous` | Props_Geo | B |
| `C23_any_cell_refuted` | Props_Jump | B |
| `C24_ppc` | Props_PPC | C |
| `C24_positive` | Props_PPC | C |
| `C24_scaling` | Props_PPC | C |
| `C24_cell_choice` | Props_PPC | C |
| `C24_supercell` | Props_PPC | C |
| `C24_box_supercell` | Props_PPC | C |
| `C24_isometry` | Props_PPC | C |
| `C24_estimate` | Props_PPC | C |
| `C25_every_state` | Props_Emd | D |
| `C25_initial_state` | Props_Emd | D |
| `C25_no_error` | Props_Emd | D |
| `C26_plan` | Props_Emd | B |
| `C27_fixed_point_optimal` | Props_Emd | B |
| `C27_near_exact` | Props_Emd | B |
| `C28_rows_of_one_pdd` | Props_Emd | B |
| `C28_same_pdd` | Props_Emd | B |
| `C29_symmetric_partial` | Props_Emd | B |
| `C29_symmetric_close` | Props_Emd | B |
| `C30_average_below_any_plan` | Props_Emd | D |
| `C30_average_below_value` | Props_Emd | B |
| `C30_amd_below_emd` | Props_EmdPdd | B |
| `C31_exact` | Props_Emd | D |
| `C31_triangle` | Props_Emd | B |
| `C32_returns` | Props_Emd | B |
| `C32_solver_returns` | Props_Emd | D |
| `C32_pdd_weights` | Props_EmdPdd | B |
| `C32_tiny_weights_refuted` | Props_Emd | B |
| `C33_row_order_partial` | Props_Emd | B |
| `C33_row_order_close` | Props_Emd | B |
| `C33_row_order_refuted` | Props_Emd | B |
| `C34_cdist` | Props_Matrix | B |
| `C34_pdist` | Props_Matrix | B |
| `C34_metric` | Props_Matrix | B |
| `C34_pdist_list_raises` | Props_Matrix | B |
| `C34_pdist_list_refuted` | Props_Matrix | B |
| `C34_lengths_refuted` | Props_Matrix | B |
| `C35_cdist` | Props_Matrix | E |
| `C35_pdist` | Props_Matrix | B |
| `C35_empty` | Props_Matrix | A |
| `C36_amd_one` | Props_Compare | B |
| `C36_amd_two` | Props_Compare | B |
| `C36_pdd_one` | Props_Compare | B |
| `C36_pdd_two` | Props_Compare | B |
| `C36_by_rejected` | Props_Compare | B |
| `C36_empty_rejected` | Props_Compare | B |
| `C36_other_rejected` | Props_Compare | B |
| `C37_two_collections` | Props_Matrix | B |
| `C37_one_collection` | Props_Matrix | B |
| `C37_items_one` | Props_Matrix | E |
| `C37_items_two` | Props_Matrix | E |
| `C37_compare_amd_one` | Props_Compare | B |
| `C37_compare_amd_two` | Props_Compare | B |
| `C37_compare_pdd_one` | Props_Compare | B |
| `C37_compare_pdd_two` | Props_Compare | B |
| `C38_two_collections_raises` | Props_Matrix | B |
| `C38_one_collection_raises` | Props_Matrix | B |
| `C38_compare_pdd_raises` | Props_Compare | B |
| `C38_all_others_refuted` | Props_Compare | B |
| `C39_nearest_ignored` | Props_Compare | B |
| `C39_table_written` | Props_Compare | B |
| `C39_three_paths` | Props_Compare | B |
| `C39_nearest_refuted` | Props_Compare | B |
| `C40_symmetry_operation` | Props_Text | B |
| `C40_symmetry_operations` | Props_Text | B |
| `C41_uncertainty` | Props_Text | B |
| `C41_numeral` | Props_Text | B |
| `C42_coordinate_refuted` | Props_Blocks | B |
| `C42_cell_refuted` | Props_Blocks | B |
| `C42_occupancy_refuted` | Props_Blocks | B |
| `C42_pymatgen_cell_partial` | Props_Blocks | B |
| `C42_gemmi_cell_partial` | Props_Blocks | B |
| `C43_exception_at_item` | Props_Reader | A |
| `C43_all_items` | Props_Reader | A |
| `C43_directory` | Props_Reader | A |
| `C43_file_error` | Props_Reader | A |
| `C44_shown` | Props_Reader | A |
| `C44_hidden` | Props_Reader | A |
| `C44_skipped_refuted` | Props_Reader | A |
| `C45_unique_sites` | Props_Sites | B |
| `C45_kept_and_dropped` | Props_Sites | B |
| `C45_near_kept_refuted` | Props_Sites | B |
| `C46_expansion` | Props_Sites | B |
| `C46_total` | Props_Sites | B |
| `C46_represented_refuted` | Props_Sites | B |
| `C47_gemmi` | Props_Blocks | B |
| `C47_ase` | Props_Blocks | B |
| `C47_pymatgen` | Props_Blocks | B |
| `C47_no_hydrogen` | Props_Blocks | D |
| `C47_hydrogen` | Props_Blocks | A |
| `C47_points` | Props_Blocks | D |
| `C47_all_sites` | Props_Blocks | D |
| `C48_same_result_partial` | Props_Blocks | B |
| `C48_operations` | Props_Blocks | B |
| `C48_same_skip_refuted` | Props_Blocks | B |
| `C49_unique_refcodes` | Props_Reader | A |
| `C49_families` | Props_Reader | A |
| `C49_reader` | Props_Reader | A |
| `C50_symbols` | Props_Text | A |
| `C51_diameter_3D` | Props_Utils | B |
| `C51_diameter_2D` | Props_Utils | B |
| `C51_one_dimension_refuted` | Props_Utils | B |
| `C51_one_dimension_partial` | Props_Utils | B |
| `C52_cell_to_cellpar` | Props_Utils | C |
| `C52_cell_to_cellpar_2D` | Props_Utils | C |
| `C52_volume` | Props_Utils | B |
| `C52_cellpar_to_cell` | Props_Utils | B |
| `C52_round_trip` | Props_Utils | C |
| `C52_round_trip_cell` | Props_Utils | C |
| `C52_cellpar_2D` | Props_Utils | C |
| `C53_retry_refuted` | Props_Utils | B |
| `C53_default_partial` | Props_Utils | B |
| `C53_two_dimensions` | Props_Utils | C |
| `C54_meaning` | Props_PSet | B |
| `C54_complete` | Props_PSet | B |
| `C54_reflexive` | Props_PSet | B |
| `C54_symmetric` | Props_PSet | B |
| `C54_points_refuted` | Props_PSet | B |
| `C55_bilaterate_sound` | Props_Recon | B |
| `C55_bilaterate_complete` | Props_Recon | B |
| `C55_bilaterate_coincident` | Props_Recon | B |
| `C55_trilaterate_sound` | Props_Recon | B |
| `C55_trilaterate_complete_partial` | Props_Recon | B |
| `C55_trilaterate_touching_refuted` | Props_Recon | B |
| `C56_unique` | Props_Recon | D |
| `C56_unique_apart` | Props_Recon | D |
| `C56_unique_sorted` | Props_Recon | D |
| `C56_unique_near_refuted` | Props_Recon | D |
| `C56_remove` | Props_Recon | D |
| `C56_shared` | Props_Recon | D |
| `C56_shared_values` | Props_Recon | D |
| `C57_minval` | Props_Minval | B |
| `C57_terminates` | Props_Minval | B |
| `C57_reconstructable` | Props_Minval | B |
| `C57_dimensions` | Props_Minval | B |
| `C58_query_outside_motif_refuted` | Props_NN | B |
| `C59_other_blocks` | Props_Cif | A |
| `C59_gemmi_coordinates` | Props_Cif | B |
| `C59_pymatgen_coordinates` | Props_Cif | B |
| `C59_malformed_refuted` | Props_Cif | B |
| `C59_ase_missing_refuted` | Props_Cif | B |
| `C60_filter_refuted` | Props_Reader | A |
| `C60_filter_partial` | Props_Reader | A |
| `C61_accepted` | Props_Reader | A |
| `C61_options` | Props_Reader | A |
| `C61_csd_accepted` | Props_Reader | A |
| `C62_cubic` | Props_PSet | D |
| `C62_hexagonal` | Props_PSet | C |
| `C62_random` | Props_PSet | C |
| `C63_reconstruct` | Props_Search | B |
| `C63_neighbor_set` | Props_Search | B |
| `C63_dimensions` | Props_Search | B |
| `C63_no_shared_raises` | Props_Search | B |
| `C63_not_found_refuted` | Props_Search | B |
| `C63_lattice_distances_refuted` | Props_Search | B |
| `C63_two_rows_refuted` | Props_Search | B |
| `C64_returns_partial` | Props_Minval | B |
| `C64_complete_partial` | Props_Minval | B |
| `C64_one_point_raises` | Props_Minval | B |
| `C64_distances_missing_refuted` | Props_Minval | B |
| `C65_amd` | Props_Asym | C |
| `C65_pdd` | Props_Asym | C |
| `C65_amd_limit` | Props_Asym | C |
| `C65_pdd_limit` | Props_Asym | C |
| `C65_any_point` | Props_Asym | C |
| `C66_rows` | Props_Asym | B |
| `C66_exist` | Props_Asym | C |
| `C66_entries` | Props_Asym | B |
| `C66_amd` | Props_Asym | B |
| `C67_wf` | Props_Symmetry | B |
| `C67_amd` | Props_Symmetry | B |
| `C67_pdd` | Props_Symmetry | B |
| `C67_description` | Props_Symmetry | B |
| `C67_readers` | Props_Symmetry | B |
| `C68_crystal` | Props_Objects | B |
| `C68_skip` | Props_Objects | B |
| `C68_cell` | Props_Objects | B |
| `C68_entry` | Props_Objects | B |
| `C68_missing_refuted` | Props_Objects | B |
| `C69_heaviest` | Props_Objects | B |
| `C69_unique` | Props_Objects | B |
| `C70_centres` | Props_Objects | B |
| `C70_mass_refuted` | Props_Objects | B |
| `C70_empty_refuted` | Props_Objects | B |
| `C71_atoms` | Props_Objects2 | B |
| `C71_types_refuted` | Props_Objects2 | B |
| `C71_no_group_refuted` | Props_Objects2 | B |
| `C71_unchanged` | Props_Objects2 | B |
| `C71_unchanged_refuted` | Props_Objects2 | B |
| `C72_read` | Props_Objects2 | B |
| `C72_skip` | Props_Objects2 | B |
| `C72_disordered` | Props_Objects2 | B |
| `C72_changed` | Props_Objects2 | B |
| `C72_all_sites_refuted` | Props_Objects2 | B |
| `C72_ordered_sites_refuted` | Props_Objects2 | B |
| `C72_unchanged_refuted` | Props_Objects2 | B |
| `C73_same` | Props_Emd64 | B |
| `C73_returns` | Props_Emd64 | B |
| `C73_near_exact` | Props_Emd64 | B |
| `C73_large_zero` | Props_Emd64 | B |
| `C73_large_refuted` | Props_Emd64 | B |
| `C74_rows_rounded` | Props_Round | B |
| `C74_returns_rounded` | Props_Round | B |
| `C74_amd_rounded` | Props_Round | B |
| `C74_amd_binary64` | Props_Round | C |
| `C74_pdd_uncollapsed` | Props_Round | B |
| `C74_pdd_rounded` | Props_Round | B |
| `C75_amd_finite_rounded` | Props_RoundFinite | B |
| `C75_pdd_finite_rounded` | Props_RoundFinite | B |
| `C75_amd_finite_binary64` | Props_RoundFinite | C |
| `C76_emd_rounded` | Props_RoundEmd | B |
| `C76_sets_rounded` | Props_RoundEmd | B |
| `C76_sets_binary64` | Props_RoundEmd | C |
| `C77_gemmi` | Props_Groups | B |
| `C77_ase` | Props_Groups | B |
| `C77_pymatgen` | Props_Groups | B |
| `C77_same_operations` | Props_Groups | B |
| `C78_unknown_name_refuted` | Props_Groups | B |
| `C78_missing_number_refuted` | Props_Groups | B |
| `C79_pdd_continuous` | Props_Cont | B |
| `C79_emd_continuous` | Props_Cont | B |
| `C79_emd_binary64` | Props_Cont | C |
| `C79_amd_continuous` | Props_Cont | B |
| `C79_two_eps_attained` | Props_Cont | B |
| `C80_same_sites` | Props_RoundSites | B |
| `C80_amd_rounded` | Props_RoundSites | C |
| `C80_amd_binary64` | Props_RoundSites | C |
| `C81_closed_range` | Props_RoundSites | C |
| `C81_half_open_refuted` | Props_RoundSites | C |
| `C82_nearest` | Props_Deform | B |
| `C82_pdd` | Props_Deform | B |
| `C82_emd` | Props_Deform | B |
| `C82_emd_binary64` | Props_Deform | C |
| `C82_amd` | Props_Deform | B |
| `C82_amd_asym` | Props_Deform | B |
| `C82_cell_change` | Props_Deform | B |
| `C82_copy` | Props_Deform | B |
| `C82_strain_attained` | Props_Deform | B |
| `C83_cell` | Props_RoundCell | C |
| `C83_cell_2D` | Props_RoundCell | C |
| `C83_dominant` | Props_RoundCell | B |
| `C83_amd_computed` | Props_RoundCell | C |
| `C83_amd_binary64` | Props_RoundCell | C |
| `C84_found` | Props_Found | B |
| `C84_crystal` | Props_Found | B |
| `C85_returns` | Props_Metric | D |
| `C85_near_exact` | Props_Metric | D |
| `C85_columns` | Props_Metric | D |
| `C85_same_rows` | Props_Metric | D |
| `C85_symmetric` | Props_Metric | D |
| `C85_triangle` | Props_Metric | D |
| `C85_named` | Props_Metric | C |
| `C85_names` | Props_Metric | C |
| `C85_named_metrics` | Props_Metric | C |
| `C85_monotone` | Props_Metric | D |
| `C85_orders` | Props_Metric | C |
| `C85_average_below` | Props_Metric | C |
| `C85_sqeuclidean` | Props_Metric | C |
| `C86_pdd_rounded` | Props_ReadEmd | C |
| `C86_crystals_rounded` | Props_ReadEmd | C |
| `C86_crystals_binary64` | Props_ReadEmd | C |
| `C86_displaced` | Props_ReadEmd | C |
| `C86_same_crystal` | Props_ReadEmd | C |
| `C87_pdd_binary64` | Props_ParEmd | C |
| `C87_entries_binary64` | Props_ParEmd | C |
| `C87_deformed` | Props_ParEmd | C |
| `C87_same_crystal` | Props_ParEmd | C |
| `C88_cdist` | Props_RoundAmd | B |
| `C88_pdist` | Props_RoundAmd | B |
| `C88_gap` | Props_RoundAmd | D |
| `C88_items_two` | Props_RoundAmd | B |
| `C88_items_one` | Props_RoundAmd | B |
| `C88_amds` | Props_RoundAmd | C |
| `C88_entries_pdist` | Props_RoundAmd | C |
| `C88_entries_cdist` | Props_RoundAmd | C |
| `C88_same_crystal` | Props_RoundAmd | C |
| `C89_history` | Props_SymCache | A |
| `C89_direct_refuted` | Props_SymCache | B |
| `C90_filter` | Props_Filter | C |
| `C90_filter_one` | Props_Filter | C |
| `C91_cdist` | Props_PddNear | C |
| `C91_pdist` | Props_PddNear | C |
| `C91_neighbors` | Props_PddNear | C |
| `C91_neighbors_one` | Props_PddNear | C |
