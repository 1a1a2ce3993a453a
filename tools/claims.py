c('C03','proved','C03_merge_sorted_arrays C03_merge_with_indices','Rows over the reals; numba reads are checked in the model, so the outcome Done means no out-of-bounds access. The condition on the first entries holds whenever the query points belong to the motif (first entry 0).')
c('C17','partial','C17_group_members_pairwise_overlap_partial C17_group_members_pairwise_overlap_refuted','The docstring claim is false (refuted with a three row chain); what holds is that two members overlap a common leader.')
c('C01','proved','C01_batch_is_shell C01_every_vector_in_one_batch','The float arrays holding integer coordinates are modelled by Z vectors.')
c('C02','proved','C02_history_independent C02_fresh_request','Refinement over all histories of a cache-free machine. Needs dims >= 1 and a non-empty motif (with an empty motif the loop of _integer_lattice_batches does not end).')
c('C04','proved','C04_rows_are_distances C04_no_error C04_indices_are_points','Real arithmetic. Query points drawn from the motif, as AMD and PDD do. No hypothesis on the cell.')
c('C05','proved','C05_rows_are_nearest C05_nearest_unique','Real arithmetic. Dimensions up to 4; the hypothesis is spread, which half-dominant cells with the motif inside meet (lemma in_cell_spread), but points may lie somewhat outside if the cell vectors dominate more. The first theorem is about whatever the search returns, C09 shows that it returns.')
c('C06','partial','C06_any_cell_refuted C05_rows_are_nearest C04_rows_are_distances','False in general: refuted with cell (1,0),(100,1/100). True for the cells of C05; for any cell the reported distances are genuine (C04).')
c('C07','partial','C07_motif_representatives_refuted C05_rows_are_nearest C05_nearest_unique','False in general: {0,1/2} and {0,11/2} with cell (1). When the motif lies in a well conditioned cell the rows are determined by the infinite set.')
c('C09','proved','C09_terminates','Also shows that the result does not depend on the fuel. Non-singularity is stated by a dual basis.')
c('C58','partial','C58_query_outside_motif_refuted C04_no_error','False: motif {0}, cell (1), x = {10}, k = 1 reads out of bounds. True for query points of the motif (C04).')
c('C10','proved','C10_isometry_invariant C10_amd_isometry C10_pdd_isometry','Real arithmetic. Isometries are given by orthonormal columns and a translation.')
c('C11','proved','C11_scaling C11_proportional_sets C11_amd_scaling C11_pdd_scaling','The collapse tolerance is scaled together with the set.')
c('C12','proved','C12_reordering C12_amd_reordering C12_amd_reordering_asym C12_pdd_reordering','AMD with or without an asymmetric unit, PDD uncollapsed; the collapsed PDD is C20.')
c('C13','proved','C13_amd_monotone C13_amd_total','Totality needs a non-singular cell.')
c('C14','proved','C14_pdd_is_distribution','For every option.')
c('C15','partial','C15_average_exact C15_average_close C15_collapsed_average_refuted','Exact without collapsing or with equal multiplicities, otherwise within twice the tolerance; exactness is false in general (refuted for every positive tolerance), because _collapse_into_groups averages rows without their weights.')
c('C16','proved','C16_groups_partition_around_leaders C16_group_diameter','Combinatorial statement for every symmetric overlap relation, and its consequence for the rows of a PDD.')
c('C18','proved','C18_lexsorted','')
c('C19','proved','C19_groups_identify_rows','')
c('C20','partial','C20_collapse_order_refuted C20_separated_rows','False in general, for every positive tolerance; true when distinct rows are further apart than the tolerance.')
c('C21','proved','C21_asym_amd C21_asym_pdd_weights C21_asym_pdd','For the cells of C05. Points of an orbit are related by an isometry of the periodic set (symmetry_surroundings gives the hypothesis from a rigid motion).')
c('C22','proved','C22_rows C22_distribution C22_average C22_isometry C22_reordering','At least one point for the average (scipy raises on an empty set).')
c('C23','partial','C23_nearest_continuous C23_amd_continuous C23_any_cell_refuted','The list of nearest distances: every cell. AMD as computed: the cells of C05. False for other cells: with cell (1,0),(15,3) and points (0,0),(19/5,3/5) in it the first AMD entry is 1, and drops below 7/10 however little the second point is moved inwards, because the search ends at the first layer without a closer point.')
c('C25','proved','C25_every_state C25_initial_state C25_no_error','Integers are unbounded (int64 overflow is not modelled). Weights of at least 1e-8 with sum 1; the tables are described in SpecEmd.v independently of the model.')
c('C26','proved','C26_plan','Weights of at least 1e-8 with sum 1. The row or column of the greatest weight takes up the rounding error, so it can exceed its weight by at most (rows - 1)*1e-8.')
c('C27','proved','C27_fixed_point_optimal C27_near_exact','Exact optimality in the fixed-point problem, against real-valued competitors, and the distance from the exact Earth mover\'s distance.')
c('C28','proved','C28_rows_of_one_pdd C28_same_pdd','Weights of at least 1e-8.')
c('C29','partial','C29_symmetric_partial C29_symmetric_close','Exactly symmetric when both PDDs have at most 10000 rows; beyond that the rounding error moved to the greatest weight can exceed that weight, and only closeness within twice the accuracy is proved.')
c('C30','proved','C30_average_below_any_plan C30_average_below_value C30_amd_below_emd','Exact for every transport plan; for the returned value up to its accuracy.')
c('C31','proved','C31_exact C31_triangle','Exact for the exact distance (tolerances 0 in C31_exact); for returned values up to the three accuracies.')
c('C32','partial','C32_returns C32_solver_returns C32_pdd_weights C32_tiny_weights_refuted','Proved for weights of at least 1e-8. False for smaller positive weights: they are rounded to capacity 0 and the solver pivots for ever (refuted with a 4 x 3 example).')
c('C33','partial','C33_row_order_partial C33_row_order_close C33_row_order_refuted','Exactly false: the rounding error goes to the first row of greatest weight (refuted with weights 1/3,1/3,1/3 against 1/2,1/2). True when that row is unique or no error goes to it, and always within twice the accuracy.')
c('C34','partial','C34_cdist C34_pdist C34_metric C34_pdist_list_raises C34_pdist_list_refuted C34_lengths_refuted','Proved for arrays of AMDs. The documented list of AMDs makes the low memory AMD_pdist raise for every non-empty collection (refuted), and AMDs of unequal lengths are broadcast instead of rejected (refuted).')
c('C35','proved','C35_cdist C35_pdist C35_empty','For every EMD function, every n_jobs, every order in which workers finish and every initial content of numpy.empty.')
c('C36','proved','C36_amd_one C36_amd_two C36_pdd_one C36_pdd_two C36_by_rejected C36_empty_rejected C36_other_rejected','Readers, AMD, PDD and EMD are parameters of the model of compare; the options passed to them are checked.')
c('C37','proved','C37_two_collections C37_one_collection C37_items_one C37_items_two C37_compare_amd_one C37_compare_amd_two C37_compare_pdd_one C37_compare_pdd_two','For every argpartition, argsort and kneighbors meeting their documentation (SpecCompare.v).')
c('C38','partial','C38_two_collections_raises C38_one_collection_raises C38_compare_pdd_raises C38_all_others_refuted','False for PDDs: asking for all other items raises ValueError for every collection. True for AMDs (C37_compare_amd_one covers n up to the number of other items).')
c('C39','partial','C39_nearest_ignored C39_table_written C39_three_paths C39_nearest_refuted','False: --nearest never has an effect; the full matrix is written. The rest of the command line agrees with compare.')
c('C40','proved','C40_symmetry_operation C40_symmetry_operations','ASCII strings, decimals as exact numbers. Each component lists every letter at most once and at most one number; blanks are spaces and tabs.')
c('C41','proved','C41_uncertainty C41_numeral','The bracket ends the string and contains no newline (a full stop in the regular expression does not match one).')
c('C50','proved','C50_symbols','ASCII labels.')
c('C45','proved','C45_unique_sites C45_kept_and_dropped C45_near_kept_refuted','Real arithmetic, coordinates in [0, 1). Also recorded: a dropped site is near an earlier site but not always near a kept one (refuted with a chain of three sites).')
c('C46','partial','C46_expansion C46_total C46_represented_refuted','Proved for every list of operations, except that every image is represented only when closeness is transitive on the images; without that it is false (refuted with a site near a sixfold axis). A site whose images are all duplicates of earlier ones has no entry of its own; with disjoint orbits every site has one, starting with its first image.')
c('C42','partial','C42_coordinate_refuted C42_cell_refuted C42_occupancy_refuted C42_pymatgen_cell_partial C42_gemmi_cell_partial','False: str2float gives 0 for ? and ., so such a site is kept at coordinate 0 (all three converters), such a cell parameter is 0 (gemmi), and such an occupancy counts as disorder (gemmi and pymatgen). True: pymatgen raises ParseError for ? or . cell parameters, gemmi for absent ones.')
c('C47','proved','C47_gemmi C47_ase C47_pymatgen C47_no_hydrogen C47_hydrogen C47_points C47_all_sites','For blocks whose texts denote numbers and whose symmetry data gives operations. gemmi refuses every disordered crystal; ase and pymatgen do not count hydrogens which are to be removed (see C48). Overlapping sites are dropped unless all_sites, as in C45.')
c('C48','partial','C48_same_result_partial C48_operations C48_same_skip_refuted','False for a disordered hydrogen which is to be removed: gemmi raises ParseError, the others read the crystal. Otherwise all three converters give equal results for blocks with the same atoms, cell and operations, for every option.')

c('C43','proved','C43_exception_at_item C43_all_items C43_directory C43_file_error','For every converter and iterator. A StopIteration raised by a converter would end the iteration silently; it is excluded.')
c('C44','partial','C44_shown C44_hidden C44_skipped_refuted','False: the warnings recorded for an item which raises ParseError are dropped and no warning mentions it. The warnings about crystals which are read are shown.')
c('C49','proved','C49_unique_refcodes C49_families C49_reader','The CSD search is a parameter.')
c('C59','partial','C59_other_blocks C59_gemmi_coordinates C59_pymatgen_coordinates C59_malformed_refuted C59_ase_missing_refuted','False: a malformed coordinate raises ValueError with gemmi and stops the reader; ase raises ValueError or TypeError for missing data. Missing data raises ParseError with gemmi and pymatgen (see also C42_gemmi_cell_partial, C42_pymatgen_cell_partial).')
c('C60','partial','C60_filter_refuted C60_filter_partial','False: show_warnings=False installs a global filter which silences other readers.')
c('C61','proved','C61_accepted C61_options C61_csd_accepted','Files are assumed to parse (a gemmi or ase file is opened in the constructor).')

c('C51','partial','C51_diameter_3D C51_diameter_2D C51_one_dimension_refuted C51_one_dimension_partial','Proved for dimensions 2 and 3. In dimension 1 the entry of the cell is returned with its sign, so the diameter of the cell (-1) is -1 (refuted); right for entries which are not negative.')
c('C52','proved','C52_cell_to_cellpar C52_cell_to_cellpar_2D C52_volume C52_cellpar_to_cell C52_round_trip C52_round_trip_cell C52_cellpar_2D','Real arithmetic; sqrt, cos, sin and acos are those of the standard library. Angles within 2^-45 degrees of 90 are taken as 90, as the code does.')
c('C53','partial','C53_retry_refuted C53_default_partial C53_two_dimensions','False: cellpar_to_cell raises ValueError, random_cell catches RuntimeError, so impossible angles are raised and not drawn again. With angle bounds within the default 60 to 120 the first draw always succeeds.')
c('C54','partial','C54_meaning C54_complete C54_reflexive C54_symmetric C54_points_refuted','False: the two conditions are joined by | per index, so {0, 1/2} and {3/10, 0} are called equal. Reflexive, symmetric for one cell, and true of equal sets. np.linalg.inv is a parameter with its contract.')
c('C62','proved','C62_cubic C62_hexagonal C62_random','Real arithmetic.')
c('C55','proved','C55_bilaterate_sound C55_bilaterate_complete C55_bilaterate_coincident C55_trilaterate_sound C55_trilaterate_complete_partial C55_trilaterate_touching_refuted','Real arithmetic. In 2D a point is found exactly when one exists. In 3D a point found is right; a point may be missed when two of the spheres touch from outside or overlap by less than prec (refuted for touching spheres), otherwise it is found.')
c('C56','proved','C56_unique C56_unique_apart C56_unique_sorted C56_unique_near_refuted C56_remove C56_shared C56_shared_values','Real arithmetic. A value is kept by _unique_within_tol exactly when no earlier value, kept or not, is within prec. So a chain of close values leaves removed values which are near no kept value (refuted that each value is near a kept one), also for sorted lists.')
c('C63','partial','C63_reconstruct C63_neighbor_set C63_dimensions C63_no_shared_raises C63_not_found_refuted C63_lattice_distances_refuted C63_two_rows_refuted','Proved: what is known of the points returned (real arithmetic; np.linalg.inv and the neighbour set are parameters with their contracts, the latter proved of _neighbor_set for every KD-tree answer). Refuted: the motif of two rows is not moved into the cell; rows which share no distance end in IndexError; the lattice distances up to the diameter are not all found (cell (13,0),(15,7)). That the original motif is found: C84.')
c('C24','proved','C24_ppc C24_positive C24_scaling C24_cell_choice C24_supercell C24_box_supercell C24_isometry C24_estimate','Real arithmetic, every dimension. The determinant is the Laplace expansion, proved multiplicative. An empty motif (division by zero) is left out.')
c('C08','proved','C08_data C08_returns','Real arithmetic. argpartition and argsort are parameters with their documented contracts, so every order of equal distances is covered. k at least 1.')
c('C57','proved','C57_minval C57_terminates C57_reconstructable C57_dimensions','Real arithmetic. The KD-tree is a parameter with its contract, so every order of equal distances is covered. Ending is proved for non-singular cells; otherwise the claim is about runs which end. The search can end in IndexError, see C64.')
c('C64','partial','C64_returns_partial C64_complete_partial C64_one_point_raises C64_distances_missing_refuted','Refuted twice: with a single motif point the function raises IndexError for every non-singular 2D or 3D cell; and distances below twice the diameter can be missing, since lattice vectors left out of a layer are not tried again when the search radius grows (cell (5,0),(0,7), motif (0,0),(1,0), sqrt 277 missing). Proved: it returns if the first shells reach the value from all motif points, and nothing is missing if they reach it from one, the cell vectors dominate and the motif is in the cell.')
c('C65','proved','C65_amd C65_pdd C65_amd_limit C65_pdd_limit C65_any_point','Real arithmetic, every dimension and every non-singular cell, also those for which the distances found are not the nearest (C06). By counting the points of the set in a ball; the volume of the unit ball is the factor in the code, obtained by slicing.')
c('C66','proved','C66_rows C66_exist C66_entries C66_amd','Real arithmetic. C66_rows needs no condition on the cell; C66_exist, that there are nearest distances to compare with, needs it to be non-singular.')
c('C67','proved','C67_wf C67_amd C67_pdd C67_description C67_readers','Real arithmetic. The operations are those of a group up to lattice translations (symmetry_group) and images within the tolerance are the same point (separated); comparing distances needs a half-dominant cell, as C05. With all_sites the orbits of different sites have to be disjoint. C67_readers is about what C47 shows the three converters to return.')
c('C68','proved','C68_crystal C68_skip C68_cell C68_entry C68_missing_refuted','Components, asymmetric unit and cell of csd-python-api are parameters. What the crystal contains is stated with reads, as C47. C68_missing_refuted: the docstring says that an atom without fractional coordinates gives ParseError; it is left out instead.')
c('C69','proved','C69_heaviest C69_unique','Weights which are numbers or an empty text, occupancies which are finite or not given.')
c('C70','partial','C70_centres C70_mass_refuted C70_empty_refuted','Refuted: the points are averages of the positions, not centres of mass, and without molecules the exception is not ParseError. Proved: the motif consists of the averages of the positions of the atoms of each molecule modulo the lattice, each once up to the tolerance.')
c('C71','partial','C71_atoms C71_types_refuted C71_no_group_refuted C71_unchanged C71_unchanged_refuted','Refuted: types are in the order of the atoms, the motif in the order of the orbits; without a spacegroup the atoms are reduced by the group found but expanded by the identity only, so atoms are lost; removing hydrogens changes the object passed. Proved: with a spacegroup which is a symmetry of the atoms, the motif is a permutation of all atoms and AMD that of all atoms. get_basis of ase is a parameter with a contract.')
c('C72','partial','C72_read C72_skip C72_disordered C72_changed C72_all_sites_refuted C72_ordered_sites_refuted C72_unchanged_refuted','Refuted: with all_sites a structure with disorder always raises AttributeError, as with ordered_sites if a site is shared by elements of total occupancy 1; the structure passed loses the sites. Proved: the rest. The conventional cell is a parameter.')
c('C73','partial','C73_same C73_returns C73_near_exact C73_large_zero C73_large_refuted','Refuted: if the distances between all rows add up to between 1.6e10 and 3e10 (each at most 1e9) EMD returns 0 at once, whatever the PDDs, e.g. two PDDs of 20000 rows with mean distance 50. Proved: up to a sum of 1e10 nothing overflows, so C25 to C33 hold of the program with 64-bit integers. All operations on integers wrap around; the conversion from real numbers is a parameter, specified for numbers below 2^63.')
c('C74','proved','C74_rows_rounded C74_returns_rounded C74_amd_rounded C74_amd_binary64 C74_pdd_uncollapsed C74_pdd_rounded','No overflow. Sums and scalar products are operations of their own: any order, any fused multiply-add, as numba (fastmath), numpy and BLAS may choose, but a fixed function of their arguments; divisions may be multiplications by reciprocals. PDD with collapsing only where no two rows differ by nearly exactly the tolerance (elsewhere the groups may differ). Errors: 100 u (d + b) for a distance d, (110 + 3 m) u (a + b) for an average a, (5 + 2 m) u w for a weight w, b the largest norm in the motif of m points. Cells as in C05; the rows also for points by u / 8 further apart in fractional coordinates.')
c('C75','proved','C75_amd_finite_rounded C75_pdd_finite_rounded C75_amd_finite_binary64','No overflow; scipy pdist as squares added in any order, then a square root.')
c('C76','proved','C76_emd_rounded C76_sets_rounded C76_sets_binary64','No overflow of floating-point numbers; sums and scalar products in any order; the contract of the conversion to int64 as in C73.')
c('C77','proved','C77_gemmi C77_ase C77_pymatgen C77_same_operations','The tables of space groups of the three libraries are parameters.')
c('C78','partial','C77_gemmi C77_pymatgen C78_unknown_name_refuted C78_missing_number_refuted','Refuted: ase does not go on from an unknown name such as ? to the number but raises; gemmi and ase raise if the number under the newer tag is ?, though the older tag has one. Proved (C77): gemmi goes on from unknown names, pymatgen from unknown names and numbers.')
c('C79','proved','C79_pdd_continuous C79_emd_continuous C79_emd_binary64 C79_amd_continuous C79_two_eps_attained','Cells as in C05 (for others AMD jumps, C23_any_cell_refuted); asymmetric units with correct multiplicities. In binary64 as in C76.')
c('C80','proved','C80_same_sites C80_amd_rounded C80_amd_binary64','No overflow. The cell and the sites are the floating-point numbers given to the end of the converters (after cellpar_to_cell and the parsing of coordinates). Cells as in C05, dimension at most 4; in binary64 of size at most 1000 with an inverse of size at most 1000, up to 50000 points. Images at the limit of the tolerance are excluded: there, rounding may decide otherwise. Scalar products return numbers of the format (proved for sums from left to right and for fused ones).')
c('C81','partial','C81_closed_range C81_half_open_refuted','Refuted: in binary64 np.mod(-2**-60, 1) is 1.0, so the motif read contains a point on the far side of the cell. Proved: the result is in [0, 1], exact for x >= 0, 0 for integers, differs from x by an integer up to 2^-53, and is 1 only within 2^-53 below an integer; in exact arithmetic it is in [0, 1) (C67_wf).')
c('C82','proved','C82_nearest C82_pdd C82_emd C82_emd_binary64 C82_amd C82_amd_asym C82_cell_change C82_copy C82_strain_attained','Cells as in C05 for both sets (for others AMD jumps, C23_any_cell_refuted); asymmetric units with correct multiplicities; delta < 1. In binary64 as in C76. Attained is shown for the AMD: by the strain here, by the displacement in C79_two_eps_attained.')
c('C83','proved','C83_cell C83_cell_2D C83_dominant C83_amd_computed C83_amd_binary64','Cells as in C05. The operations are in the order of the source; fastmath may choose another one. For the AMD the cell computed is to be as in C05, too: so it is if the scalar products of the cell vectors are below the limit by 3360 u L / l in proportion, for lengths of at least l that add up to L. Hexagonal cells with an angle of 120 degrees are at the limit. No overflow.')
c('C84','proved','C84_found C84_crystal','Real arithmetic, as C63. The neighbour set is taken to consist of lattice vectors (C63_neighbor_set) and to be closed under inversion. C84_found states the conditions for any rows, C84_crystal derives them for rows of distances of a crystal. From three points on the points are moved into the cell; with two the second one is returned as found. An example in the plane with three points is checked in full.')
c('C85','proved','C85_returns C85_near_exact C85_columns C85_same_rows C85_symmetric C85_triangle C85_named C85_names C85_named_metrics C85_monotone C85_orders C85_average_below C85_sqeuclidean','Real arithmetic; scipy.cdist applies the metric to each pair of rows. Symmetric exactly for up to 10000 rows, as in C29. Orders of minkowski which are no integers are left out, as are the other names of scipy; any function of two rows without negative values is covered by the first six theorems.')
c('C86','proved','C86_pdd_rounded C86_crystals_rounded C86_crystals_binary64 C86_displaced C86_same_crystal','No overflow. As in C80, from the cell and the coordinates as floating-point numbers on; as in C76 for EMD. Comparisons which rounding might decide otherwise (images at the limit of the tolerance, rows at the limit of collapsing) are excluded. In binary64 up to 5000 points in each cell.')
c('C87','proved','C87_pdd_binary64 C87_entries_binary64 C87_deformed C87_same_crystal','No overflow. Operations of cellpar_to_cell in the order of the source, as in C83. Cells as in C05, the ones computed included (C83_dominant gives a condition on the exact cells). From parsed numbers on; as in C86 otherwise. In binary64 up to 5000 points in each cell.')
c('C88','proved','C88_cdist C88_pdist C88_gap C88_items_two C88_items_one C88_amds C88_entries_pdist C88_entries_cdist C88_same_crystal','No overflow. As in C87 up to the AMDs, up to 50000 points in each cell; no condition on collapsing. The neighbour search of scikit-learn is a parameter with its contract for the rounded distance (C37).')
c('C89','proved','C89_history C89_direct_refuted','Memory is a list of arrays, references are positions. C89_direct_refuted is about the private function _parse_sitesym, which only _parse_sitesyms calls, so no user of the public API meets it.')
c('C90','proved','C90_filter C90_filter_one','No overflow. As in C87 and C88. In real arithmetic without the bound on rounding errors: C30.')
c('C91','proved','C91_cdist C91_pdist C91_neighbors C91_neighbors_one','No overflow. As in C87, metric chebyshev. argpartition and argsort are parameters with their contracts (C37). C91_neighbors_one has the condition that no computed distance is negative, because the diagonal is 0 and an inner product in any order is known here only up to its error.')
