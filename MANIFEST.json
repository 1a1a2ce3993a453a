{
 "claims": [
  {
   "property": "C01",
   "status": "proved",
   "theorems": [
    "C01_batch_is_shell",
    "C01_every_vector_in_one_batch"
   ],
   "note": "The float arrays holding integer coordinates are modelled by Z vectors."
  },
  {
   "property": "C02",
   "status": "proved",
   "theorems": [
    "C02_history_independent",
    "C02_fresh_request"
   ],
   "note": "Refinement over all histories of a cache-free machine. Needs dims >= 1 and a non-empty motif (with an empty motif the loop of _integer_lattice_batches does not end)."
  },
  {
   "property": "C03",
   "status": "proved",
   "theorems": [
    "C03_merge_sorted_arrays",
    "C03_merge_with_indices"
   ],
   "note": "Rows over the reals; numba reads are checked in the model, so the outcome Done means no out-of-bounds access. The condition on the first entries holds whenever the query points belong to the motif (first entry 0)."
  },
  {
   "property": "C04",
   "status": "proved",
   "theorems": [
    "C04_rows_are_distances",
    "C04_no_error",
    "C04_indices_are_points"
   ],
   "note": "Real arithmetic. Query points drawn from the motif, as AMD and PDD do. No hypothesis on the cell."
  },
  {
   "property": "C05",
   "status": "proved",
   "theorems": [
    "C05_rows_are_nearest",
    "C05_nearest_unique"
   ],
   "note": "Real arithmetic. Dimensions up to 4; the hypothesis is spread, which half-dominant cells with the motif inside meet (lemma in_cell_spread), but points may lie somewhat outside if the cell vectors dominate more. The first theorem is about whatever the search returns, C09 shows that it returns."
  },
  {
   "property": "C06",
   "status": "partial",
   "theorems": [
    "C06_any_cell_refuted",
    "C05_rows_are_nearest",
    "C04_rows_are_distances"
   ],
   "note": "False in general: refuted with cell (1,0),(100,1/100). True for the cells of C05; for any cell the reported distances are genuine (C04)."
  },
  {
   "property": "C07",
   "status": "partial",
   "theorems": [
    "C07_motif_representatives_refuted",
    "C05_rows_are_nearest",
    "C05_nearest_unique"
   ],
   "note": "False in general: {0,1/2} and {0,11/2} with cell (1). When the motif lies in a well conditioned cell the rows are determined by the infinite set."
  },
  {
   "property": "C08",
   "status": "proved",
   "theorems": [
    "C08_data",
    "C08_returns"
   ],
   "note": "Real arithmetic. argpartition and argsort are parameters with their documented contracts, so every order of equal distances is covered. k at least 1."
  },
  {
   "property": "C09",
   "status": "proved",
   "theorems": [
    "C09_terminates"
   ],
   "note": "Also shows that the result does not depend on the fuel. Non-singularity is stated by a dual basis."
  },
  {
   "property": "C10",
   "status": "proved",
   "theorems": [
    "C10_isometry_invariant",
    "C10_amd_isometry",
    "C10_pdd_isometry"
   ],
   "note": "Real arithmetic. Isometries are given by orthonormal columns and a translation."
  },
  {
   "property": "C11",
   "status": "proved",
   "theorems": [
    "C11_scaling",
    "C11_proportional_sets",
    "C11_amd_scaling",
    "C11_pdd_scaling"
   ],
   "note": "The collapse tolerance is scaled together with the set."
  },
  {
   "property": "C12",
   "status": "proved",
   "theorems": [
    "C12_reordering",
    "C12_amd_reordering",
    "C12_amd_reordering_asym",
    "C12_pdd_reordering"
   ],
   "note": "AMD with or without an asymmetric unit, PDD uncollapsed; the collapsed PDD is C20."
  },
  {
   "property": "C13",
   "status": "proved",
   "theorems": [
    "C13_amd_monotone",
    "C13_amd_total"
   ],
   "note": "Totality needs a non-singular cell."
  },
  {
   "property": "C14",
   "status": "proved",
   "theorems": [
    "C14_pdd_is_distribution"
   ],
   "note": "For every option."
  },
  {
   "property": "C15",
   "status": "partial",
   "theorems": [
    "C15_average_exact",
    "C15_average_close",
    "C15_collapsed_average_refuted"
   ],
   "note": "Exact without collapsing or with equal multiplicities, otherwise within twice the tolerance; exactness is false in general (refuted for every positive tolerance), because _collapse_into_groups averages rows without their weights."
  },
  {
   "property": "C16",
   "status": "proved",
   "theorems": [
    "C16_groups_partition_around_leaders",
    "C16_group_diameter"
   ],
   "note": "Combinatorial statement for every symmetric overlap relation, and its consequence for the rows of a PDD."
  },
  {
   "property": "C17",
   "status": "partial",
   "theorems": [
    "C17_group_members_pairwise_overlap_partial",
    "C17_group_members_pairwise_overlap_refuted"
   ],
   "note": "The docstring claim is false (refuted with a three row chain); what holds is that two members overlap a common leader."
  },
  {
   "property": "C18",
   "status": "proved",
   "theorems": [
    "C18_lexsorted"
   ],
   "note": ""
  },
  {
   "property": "C19",
   "status": "proved",
   "theorems": [
    "C19_groups_identify_rows"
   ],
   "note": ""
  },
  {
   "property": "C20",
   "status": "partial",
   "theorems": [
    "C20_collapse_order_refuted",
    "C20_separated_rows"
   ],
   "note": "False in general, for every positive tolerance; true when distinct rows are further apart than the tolerance."
  },
  {
   "property": "C21",
   "status": "proved",
   "theorems": [
    "C21_asym_amd",
    "C21_asym_pdd_weights",
    "C21_asym_pdd"
   ],
   "note": "For the cells of C05. Points of an orbit are related by an isometry of the periodic set (symmetry_surroundings gives the hypothesis from a rigid motion)."
  },
  {
   "property": "C22",
   "status": "proved",
   "theorems": [
    "C22_rows",
    "C22_distribution",
    "C22_average",
    "C22_isometry",
    "C22_reordering"
   ],
   "note": "At least one point for the average (scipy raises on an empty set)."
  },
  {
   "property": "C23",
   "status": "partial",
   "theorems": [
    "C23_nearest_continuous",
    "C23_amd_continuous",
    "C23_any_cell_refuted"
   ],
   "note": "The list of nearest distances: every cell. AMD as computed: the cells of C05. False for other cells: with cell (1,0),(15,3) and points (0,0),(19/5,3/5) in it the first AMD entry is 1, and drops below 7/10 however little the second point is moved inwards, because the search ends at the first layer without a closer point."
  },
  {
   "property": "C24",
   "status": "proved",
   "theorems": [
    "C24_ppc",
    "C24_positive",
    "C24_scaling",
    "C24_cell_choice",
    "C24_supercell",
    "C24_box_supercell",
    "C24_isometry",
    "C24_estimate"
   ],
   "note": "Real arithmetic, every dimension. The determinant is the Laplace expansion, proved multiplicative. An empty motif (division by zero) is left out."
  },
  {
   "property": "C25",
   "status": "proved",
   "theorems": [
    "C25_every_state",
    "C25_initial_state",
    "C25_no_error"
   ],
   "note": "Integers are unbounded (int64 overflow is not modelled). Weights of at least 1e-8 with sum 1; the tables are described in SpecEmd.v independently of the model."
  },
  {
   "property": "C26",
   "status": "proved",
   "theorems": [
    "C26_plan"
   ],
   "note": "Weights of at least 1e-8 with sum 1. The row or column of the greatest weight takes up the rounding error, so it can exceed its weight by at most (rows - 1)*1e-8."
  },
  {
   "property": "C27",
   "status": "proved",
   "theorems": [
    "C27_fixed_point_optimal",
    "C27_near_exact"
   ],
   "note": "Exact optimality in the fixed-point problem, against real-valued competitors, and the distance from the exact Earth mover's distance."
  },
  {
   "property": "C28",
   "status": "proved",
   "theorems": [
    "C28_rows_of_one_pdd",
    "C28_same_pdd"
   ],
   "note": "Weights of at least 1e-8."
  },
  {
   "property": "C29",
   "status": "partial",
   "theorems": [
    "C29_symmetric_partial",
    "C29_symmetric_close"
   ],
   "note": "Exactly symmetric when both PDDs have at most 10000 rows; beyond that the rounding error moved to the greatest weight can exceed that weight, and only closeness within twice the accuracy is proved."
  },
  {
   "property": "C30",
   "status": "proved",
   "theorems": [
    "C30_average_below_any_plan",
    "C30_average_below_value",
    "C30_amd_below_emd"
   ],
   "note": "Exact for every transport plan; for the returned value up to its accuracy."
  },
  {
   "property": "C31",
   "status": "proved",
   "theorems": [
    "C31_exact",
    "C31_triangle"
   ],
   "note": "Exact for the exact distance (tolerances 0 in C31_exact); for returned values up to the three accuracies."
  },
  {
   "property": "C32",
   "status": "partial",
   "theorems": [
    "C32_returns",
    "C32_solver_returns",
    "C32_pdd_weights",
    "C32_tiny_weights_refuted"
   ],
   "note": "Proved for weights of at least 1e-8. False for smaller positive weights: they are rounded to capacity 0 and the solver pivots for ever (refuted with a 4 x 3 example)."
  },
  {
   "property": "C33",
   "status": "partial",
   "theorems": [
    "C33_row_order_partial",
    "C33_row_order_close",
    "C33_row_order_refuted"
   ],
   "note": "Exactly false: the rounding error goes to the first row of greatest weight (refuted with weights 1/3,1/3,1/3 against 1/2,1/2). True when that row is unique or no error goes to it, and always within twice the accuracy."
  },
  {
   "property": "C34",
   "status": "partial",
   "theorems": [
    "C34_cdist",
    "C34_pdist",
    "C34_metric",
    "C34_pdist_list_raises",
    "C34_pdist_list_refuted",
    "C34_lengths_refuted"
   ],
   "note": "Proved for arrays of AMDs. The documented list of AMDs makes the low memory AMD_pdist raise for every non-empty collection (refuted), and AMDs of unequal lengths are broadcast instead of rejected (refuted)."
  },
  {
   "property": "C35",
   "status": "proved",
   "theorems": [
    "C35_cdist",
    "C35_pdist",
    "C35_empty"
   ],
   "note": "For every EMD function, every n_jobs, every order in which workers finish and every initial content of numpy.empty."
  },
  {
   "property": "C36",
   "status": "proved",
   "theorems": [
    "C36_amd_one",
    "C36_amd_two",
    "C36_pdd_one",
    "C36_pdd_two",
    "C36_by_rejected",
    "C36_empty_rejected",
    "C36_other_rejected"
   ],
   "note": "Readers, AMD, PDD and EMD are parameters of the model of compare; the options passed to them are checked."
  },
  {
   "property": "C37",
   "status": "proved",
   "theorems": [
    "C37_two_collections",
    "C37_one_collection",
    "C37_items_one",
    "C37_items_two",
    "C37_compare_amd_one",
    "C37_compare_amd_two",
    "C37_compare_pdd_one",
    "C37_compare_pdd_two"
   ],
   "note": "For every argpartition, argsort and kneighbors meeting their documentation (SpecCompare.v)."
  },
  {
   "property": "C38",
   "status": "partial",
   "theorems": [
    "C38_two_collections_raises",
    "C38_one_collection_raises",
    "C38_compare_pdd_raises",
    "C38_all_others_refuted"
   ],
   "note": "False for PDDs: asking for all other items raises ValueError for every collection. True for AMDs (C37_compare_amd_one covers n up to the number of other items)."
  },
  {
   "property": "C39",
   "status": "partial",
   "theorems": [
    "C39_nearest_ignored",
    "C39_table_written",
    "C39_three_paths",
    "C39_nearest_refuted"
   ],
   "note": "False: --nearest never has an effect; the full matrix is written. The rest of the command line agrees with compare."
  },
  {
   "property": "C40",
   "status": "proved",
   "theorems": [
    "C40_symmetry_operation",
    "C40_symmetry_operations"
   ],
   "note": "ASCII strings, decimals as exact numbers. Each component lists every letter at most once and at most one number; blanks are spaces and tabs."
  },
  {
   "property": "C41",
   "status": "proved",
   "theorems": [
    "C41_uncertainty",
    "C41_numeral"
   ],
   "note": "The bracket ends the string and contains no newline (a full stop in the regular expression does not match one)."
  },
  {
   "property": "C42",
   "status": "partial",
   "theorems": [
    "C42_coordinate_refuted",
    "C42_cell_refuted",
    "C42_occupancy_refuted",
    "C42_pymatgen_cell_partial",
    "C42_gemmi_cell_partial"
   ],
   "note": "False: str2float gives 0 for ? and ., so such a site is kept at coordinate 0 (all three converters), such a cell parameter is 0 (gemmi), and such an occupancy counts as disorder (gemmi and pymatgen). True: pymatgen raises ParseError for ? or . cell parameters, gemmi for absent ones."
  },
  {
   "property": "C43",
   "status": "proved",
   "theorems": [
    "C43_exception_at_item",
    "C43_all_items",
    "C43_directory",
    "C43_file_error"
   ],
   "note": "For every converter and iterator. A StopIteration raised by a converter would end the iteration silently; it is excluded."
  },
  {
   "property": "C44",
   "status": "partial",
   "theorems": [
    "C44_shown",
    "C44_hidden",
    "C44_skipped_refuted"
   ],
   "note": "False: the warnings recorded for an item which raises ParseError are dropped and no warning mentions it. The warnings about crystals which are read are shown."
  },
  {
   "property": "C45",
   "status": "proved",
   "theorems": [
    "C45_unique_sites",
    "C45_kept_and_dropped",
    "C45_near_kept_refuted"
   ],
   "note": "Real arithmetic, coordinates in [0, 1). Also recorded: a dropped site is near an earlier site but not always near a kept one (refuted with a chain of three sites)."
  },
  {
   "property": "C46",
   "status": "partial",
   "theorems": [
    "C46_expansion",
    "C46_total",
    "C46_represented_refuted"
   ],
   "note": "Proved for every list of operations, except that every image is represented only when closeness is transitive on the images; without that it is false (refuted with a site near a sixfold axis). A site whose images are all duplicates of earlier ones has no entry of its own; with disjoint orbits every site has one, starting with its first image."
  },
  {
   "property": "C47",
   "status": "proved",
   "theorems": [
    "C47_gemmi",
    "C47_ase",
    "C47_pymatgen",
    "C47_no_hydrogen",
    "C47_hydrogen",
    "C47_points",
    "C47_all_sites"
   ],
   "note": "For blocks whose texts denote numbers and whose symmetry data gives operations. gemmi refuses every disordered crystal; ase and pymatgen do not count hydrogens which are to be removed (see C48). Overlapping sites are dropped unless all_sites, as in C45."
  },
  {
   "property": "C48",
   "status": "partial",
   "theorems": [
    "C48_same_result_partial",
    "C48_operations",
    "C48_same_skip_refuted"
   ],
   "note": "False for a disordered hydrogen which is to be removed: gemmi raises ParseError, the others read the crystal. Otherwise all three converters give equal results for blocks with the same atoms, cell and operations, for every option."
  },
  {
   "property": "C49",
   "status": "proved",
   "theorems": [
    "C49_unique_refcodes",
    "C49_families",
    "C49_reader"
   ],
   "note": "The CSD search is a parameter."
  },
  {
   "property": "C50",
   "status": "proved",
   "theorems": [
    "C50_symbols"
   ],
   "note": "ASCII labels."
  },
  {
   "property": "C51",
   "status": "partial",
   "theorems": [
    "C51_diameter_3D",
    "C51_diameter_2D",
    "C51_one_dimension_refuted",
    "C51_one_dimension_partial"
   ],
   "note": "Proved for dimensions 2 and 3. In dimension 1 the entry of the cell is returned with its sign, so the diameter of the cell (-1) is -1 (refuted); right for entries which are not negative."
  },
  {
   "property": "C52",
   "status": "proved",
   "theorems": [
    "C52_cell_to_cellpar",
    "C52_cell_to_cellpar_2D",
    "C52_volume",
    "C52_cellpar_to_cell",
    "C52_round_trip",
    "C52_round_trip_cell",
    "C52_cellpar_2D"
   ],
   "note": "Real arithmetic; sqrt, cos, sin and acos are those of the standard library. Angles within 2^-45 degrees of 90 are taken as 90, as the code does."
  },
  {
   "property": "C53",
   "status": "partial",
   "theorems": [
    "C53_retry_refuted",
    "C53_default_partial",
    "C53_two_dimensions"
   ],
   "note": "False: cellpar_to_cell raises ValueError, random_cell catches RuntimeError, so impossible angles are raised and not drawn again. With angle bounds within the default 60 to 120 the first draw always succeeds."
  },
  {
   "property": "C54",
   "status": "partial",
   "theorems": [
    "C54_meaning",
    "C54_complete",
    "C54_reflexive",
    "C54_symmetric",
    "C54_points_refuted"
   ],
   "note": "False: the two conditions are joined by | per index, so {0, 1/2} and {3/10, 0} are called equal. Reflexive, symmetric for one cell, and true of equal sets. np.linalg.inv is a parameter with its contract."
  },
  {
   "property": "C55",
   "status": "proved",
   "theorems": [
    "C55_bilaterate_sound",
    "C55_bilaterate_complete",
    "C55_bilaterate_coincident",
    "C55_trilaterate_sound",
    "C55_trilaterate_complete_partial",
    "C55_trilaterate_touching_refuted"
   ],
   "note": "Real arithmetic. In 2D a point is found exactly when one exists. In 3D a point found is right; a point may be missed when two of the spheres touch from outside or overlap by less than prec (refuted for touching spheres), otherwise it is found."
  },
  {
   "property": "C56",
   "status": "proved",
   "theorems": [
    "C56_unique",
    "C56_unique_apart",
    "C56_unique_sorted",
    "C56_unique_near_refuted",
    "C56_remove",
    "C56_shared",
    "C56_shared_values"
   ],
   "note": "Real arithmetic. A value is kept by _unique_within_tol exactly when no earlier value, kept or not, is within prec. So a chain of close values leaves removed values which are near no kept value (refuted that each value is near a kept one), also for sorted lists."
  },
  {
   "property": "C57",
   "status": "proved",
   "theorems": [
    "C57_minval",
    "C57_terminates",
    "C57_reconstructable",
    "C57_dimensions"
   ],
   "note": "Real arithmetic. The KD-tree is a parameter with its contract, so every order of equal distances is covered. Ending is proved for non-singular cells; otherwise the claim is about runs which end. The search can end in IndexError, see C64."
  },
  {
   "property": "C58",
   "status": "partial",
   "theorems": [
    "C58_query_outside_motif_refuted",
    "C04_no_error"
   ],
   "note": "False: motif {0}, cell (1), x = {10}, k = 1 reads out of bounds. True for query points of the motif (C04)."
  },
  {
   "property": "C59",
   "status": "partial",
   "theorems": [
    "C59_other_blocks",
    "C59_gemmi_coordinates",
    "C59_pymatgen_coordinates",
    "C59_malformed_refuted",
    "C59_ase_missing_refuted"
   ],
   "note": "False: a malformed coordinate raises ValueError with gemmi and stops the reader; ase raises ValueError or TypeError for missing data. Missing data raises ParseError with gemmi and pymatgen (see also C42_gemmi_cell_partial, C42_pymatgen_cell_partial)."
  },
  {
   "property": "C60",
   "status": "partial",
   "theorems": [
    "C60_filter_refuted",
    "C60_filter_partial"
   ],
   "note": "False: show_warnings=False installs a global filter which silences other readers."
  },
  {
   "property": "C61",
   "status": "proved",
   "theorems": [
    "C61_accepted",
    "C61_options",
    "C61_csd_accepted"
   ],
   "note": "Files are assumed to parse (a gemmi or ase file is opened in the constructor)."
  },
  {
   "property": "C62",
   "status": "proved",
   "theorems": [
    "C62_cubic",
    "C62_hexagonal",
    "C62_random"
   ],
   "note": "Real arithmetic."
  },
  {
   "property": "C63",
   "status": "partial",
   "theorems": [
    "C63_reconstruct",
    "C63_neighbor_set",
    "C63_dimensions",
    "C63_no_shared_raises",
    "C63_not_found_refuted",
    "C63_lattice_distances_refuted",
    "C63_two_rows_refuted"
   ],
   "note": "Proved: what is known of the points returned (real arithmetic; np.linalg.inv and the neighbour set are parameters with their contracts, the latter proved of _neighbor_set for every KD-tree answer). Refuted: the motif of two rows is not moved into the cell; rows which share no distance end in IndexError; the lattice distances up to the diameter are not all found (cell (13,0),(15,7)). That the original motif is found: C84."
  },
  {
   "property": "C64",
   "status": "partial",
   "theorems": [
    "C64_returns_partial",
    "C64_complete_partial",
    "C64_one_point_raises",
    "C64_distances_missing_refuted"
   ],
   "note": "Refuted twice: with a single motif point the function raises IndexError for every non-singular 2D or 3D cell; and distances below twice the diameter can be missing, since lattice vectors left out of a layer are not tried again when the search radius grows (cell (5,0),(0,7), motif (0,0),(1,0), sqrt 277 missing). Proved: it returns if the first shells reach the value from all motif points, and nothing is missing if they reach it from one, the cell vectors dominate and the motif is in the cell."
  },
  {
   "property": "C65",
   "status": "proved",
   "theorems": [
    "C65_amd",
    "C65_pdd",
    "C65_amd_limit",
    "C65_pdd_limit",
    "C65_any_point"
   ],
   "note": "Real arithmetic, every dimension and every non-singular cell, also those for which the distances found are not the nearest (C06). By counting the points of the set in a ball; the volume of the unit ball is the factor in the code, obtained by slicing."
  },
  {
   "property": "C66",
   "status": "proved",
   "theorems": [
    "C66_rows",
    "C66_exist",
    "C66_entries",
    "C66_amd"
   ],
   "note": "Real arithmetic. C66_rows needs no condition on the cell; C66_exist, that there are nearest distances to compare with, needs it to be non-singular."
  },
  {
   "property": "C67",
   "status": "proved",
   "theorems": [
    "C67_wf",
    "C67_amd",
    "C67_pdd",
    "C67_description",
    "C67_readers"
   ],
   "note": "Real arithmetic. The operations are those of a group up to lattice translations (symmetry_group) and images within the tolerance are the same point (separated); comparing distances needs a half-dominant cell, as C05. With all_sites the orbits of different sites have to be disjoint. C67_readers is about what C47 shows the three converters to return."
  },
  {
   "property": "C68",
   "status": "proved",
   "theorems": [
    "C68_crystal",
    "C68_skip",
    "C68_cell",
    "C68_entry",
    "C68_missing_refuted"
   ],
   "note": "Components, asymmetric unit and cell of csd-python-api are parameters. What the crystal contains is stated with reads, as C47. C68_missing_refuted: the docstring says that an atom without fractional coordinates gives ParseError; it is left out instead."
  },
  {
   "property": "C69",
   "status": "proved",
   "theorems": [
    "C69_heaviest",
    "C69_unique"
   ],
   "note": "Weights which are numbers or an empty text, occupancies which are finite or not given."
  },
  {
   "property": "C70",
   "status": "partial",
   "theorems": [
    "C70_centres",
    "C70_mass_refuted",
    "C70_empty_refuted"
   ],
   "note": "Refuted: the points are averages of the positions, not centres of mass, and without molecules the exception is not ParseError. Proved: the motif consists of the averages of the positions of the atoms of each molecule modulo the lattice, each once up to the tolerance."
  },
  {
   "property": "C71",
   "status": "partial",
   "theorems": [
    "C71_atoms",
    "C71_types_refuted",
    "C71_no_group_refuted",
    "C71_unchanged",
    "C71_unchanged_refuted"
   ],
   "note": "Refuted: types are in the order of the atoms, the motif in the order of the orbits; without a spacegroup the atoms are reduced by the group found but expanded by the identity only, so atoms are lost; removing hydrogens changes the object passed. Proved: with a spacegroup which is a symmetry of the atoms, the motif is a permutation of all atoms and AMD that of all atoms. get_basis of ase is a parameter with a contract."
  },
  {
   "property": "C72",
   "status": "partial",
   "theorems": [
    "C72_read",
    "C72_skip",
    "C72_disordered",
    "C72_changed",
    "C72_all_sites_refuted",
    "C72_ordered_sites_refuted",
    "C72_unchanged_refuted"
   ],
   "note": "Refuted: with all_sites a structure with disorder always raises AttributeError, as with ordered_sites if a site is shared by elements of total occupancy 1; the structure passed loses the sites. Proved: the rest. The conventional cell is a parameter."
  },
  {
   "property": "C73",
   "status": "partial",
   "theorems": [
    "C73_same",
    "C73_returns",
    "C73_near_exact",
    "C73_large_zero",
    "C73_large_refuted"
   ],
   "note": "Refuted: if the distances between all rows add up to between 1.6e10 and 3e10 (each at most 1e9) EMD returns 0 at once, whatever the PDDs, e.g. two PDDs of 20000 rows with mean distance 50. Proved: up to a sum of 1e10 nothing overflows, so C25 to C33 hold of the program with 64-bit integers. All operations on integers wrap around; the conversion from real numbers is a parameter, specified for numbers below 2^63."
  },
  {
   "property": "C74",
   "status": "proved",
   "theorems": [
    "C74_rows_rounded",
    "C74_returns_rounded",
    "C74_amd_rounded",
    "C74_amd_binary64",
    "C74_pdd_uncollapsed",
    "C74_pdd_rounded"
   ],
   "note": "No overflow. Sums and scalar products are operations of their own: any order, any fused multiply-add, as numba (fastmath), numpy and BLAS may choose, but a fixed function of their arguments; divisions may be multiplications by reciprocals. PDD with collapsing only where no two rows differ by nearly exactly the tolerance (elsewhere the groups may differ). Errors: 100 u (d + b) for a distance d, (110 + 3 m) u (a + b) for an average a, (5 + 2 m) u w for a weight w, b the largest norm in the motif of m points. Cells as in C05; the rows also for points by u / 8 further apart in fractional coordinates."
  },
  {
   "property": "C75",
   "status": "proved",
   "theorems": [
    "C75_amd_finite_rounded",
    "C75_pdd_finite_rounded",
    "C75_amd_finite_binary64"
   ],
   "note": "No overflow; scipy pdist as squares added in any order, then a square root."
  },
  {
   "property": "C76",
   "status": "proved",
   "theorems": [
    "C76_emd_rounded",
    "C76_sets_rounded",
    "C76_sets_binary64"
   ],
   "note": "No overflow of floating-point numbers; sums and scalar products in any order; the contract of the conversion to int64 as in C73."
  },
  {
   "property": "C77",
   "status": "proved",
   "theorems": [
    "C77_gemmi",
    "C77_ase",
    "C77_pymatgen",
    "C77_same_operations"
   ],
   "note": "The tables of space groups of the three libraries are parameters."
  },
  {
   "property": "C78",
   "status": "partial",
   "theorems": [
    "C77_gemmi",
    "C77_pymatgen",
    "C78_unknown_name_refuted",
    "C78_missing_number_refuted"
   ],
   "note": "Refuted: ase does not go on from an unknown name such as ? to the number but raises; gemmi and ase raise if the number under the newer tag is ?, though the older tag has one. Proved (C77): gemmi goes on from unknown names, pymatgen from unknown names and numbers."
  },
  {
   "property": "C79",
   "status": "proved",
   "theorems": [
    "C79_pdd_continuous",
    "C79_emd_continuous",
    "C79_emd_binary64",
    "C79_amd_continuous",
    "C79_two_eps_attained"
   ],
   "note": "Cells as in C05 (for others AMD jumps, C23_any_cell_refuted); asymmetric units with correct multiplicities. In binary64 as in C76."
  },
  {
   "property": "C80",
   "status": "proved",
   "theorems": [
    "C80_same_sites",
    "C80_amd_rounded",
    "C80_amd_binary64"
   ],
   "note": "No overflow. The cell and the sites are the floating-point numbers given to the end of the converters (after cellpar_to_cell and the parsing of coordinates). Cells as in C05, dimension at most 4; in binary64 of size at most 1000 with an inverse of size at most 1000, up to 50000 points. Images at the limit of the tolerance are excluded: there, rounding may decide otherwise. Scalar products return numbers of the format (proved for sums from left to right and for fused ones)."
  },
  {
   "property": "C81",
   "status": "partial",
   "theorems": [
    "C81_closed_range",
    "C81_half_open_refuted"
   ],
   "note": "Refuted: in binary64 np.mod(-2**-60, 1) is 1.0, so the motif read contains a point on the far side of the cell. Proved: the result is in [0, 1], exact for x >= 0, 0 for integers, differs from x by an integer up to 2^-53, and is 1 only within 2^-53 below an integer; in exact arithmetic it is in [0, 1) (C67_wf)."
  },
  {
   "property": "C82",
   "status": "proved",
   "theorems": [
    "C82_nearest",
    "C82_pdd",
    "C82_emd",
    "C82_emd_binary64",
    "C82_amd",
    "C82_amd_asym",
    "C82_cell_change",
    "C82_copy",
    "C82_strain_attained"
   ],
   "note": "Cells as in C05 for both sets (for others AMD jumps, C23_any_cell_refuted); asymmetric units with correct multiplicities; delta < 1. In binary64 as in C76. Attained is shown for the AMD: by the strain here, by the displacement in C79_two_eps_attained."
  },
  {
   "property": "C83",
   "status": "proved",
   "theorems": [
    "C83_cell",
    "C83_cell_2D",
    "C83_dominant",
    "C83_amd_computed",
    "C83_amd_binary64"
   ],
   "note": "Cells as in C05. The operations are in the order of the source; fastmath may choose another one. For the AMD the cell computed is to be as in C05, too: so it is if the scalar products of the cell vectors are below the limit by 3360 u L / l in proportion, for lengths of at least l that add up to L. Hexagonal cells with an angle of 120 degrees are at the limit. No overflow."
  },
  {
   "property": "C84",
   "status": "proved",
   "theorems": [
    "C84_found",
    "C84_crystal"
   ],
   "note": "Real arithmetic, as C63. The neighbour set is taken to consist of lattice vectors (C63_neighbor_set) and to be closed under inversion. C84_found states the conditions for any rows, C84_crystal derives them for rows of distances of a crystal. From three points on the points are moved into the cell; with two the second one is returned as found. An example in the plane with three points is checked in full."
  },
  {
   "property": "C85",
   "status": "proved",
   "theorems": [
    "C85_returns",
    "C85_near_exact",
    "C85_columns",
    "C85_same_rows",
    "C85_symmetric",
    "C85_triangle",
    "C85_named",
    "C85_names",
    "C85_named_metrics",
    "C85_monotone",
    "C85_orders",
    "C85_average_below",
    "C85_sqeuclidean"
   ],
   "note": "Real arithmetic; scipy.cdist applies the metric to each pair of rows. Symmetric exactly for up to 10000 rows, as in C29. Orders of minkowski which are no integers are left out, as are the other names of scipy; any function of two rows without negative values is covered by the first six theorems."
  },
  {
   "property": "C86",
   "status": "proved",
   "theorems": [
    "C86_pdd_rounded",
    "C86_crystals_rounded",
    "C86_crystals_binary64",
    "C86_displaced",
    "C86_same_crystal"
   ],
   "note": "No overflow. As in C80, from the cell and the coordinates as floating-point numbers on; as in C76 for EMD. Comparisons which rounding might decide otherwise (images at the limit of the tolerance, rows at the limit of collapsing) are excluded. In binary64 up to 5000 points in each cell."
  },
  {
   "property": "C87",
   "status": "proved",
   "theorems": [
    "C87_pdd_binary64",
    "C87_entries_binary64",
    "C87_deformed",
    "C87_same_crystal"
   ],
   "note": "No overflow. Operations of cellpar_to_cell in the order of the source, as in C83. Cells as in C05, the ones computed included (C83_dominant gives a condition on the exact cells). From parsed numbers on; as in C86 otherwise. In binary64 up to 5000 points in each cell."
  },
  {
   "property": "C88",
   "status": "proved",
   "theorems": [
    "C88_cdist",
    "C88_pdist",
    "C88_gap",
    "C88_items_two",
    "C88_items_one",
    "C88_amds",
    "C88_entries_pdist",
    "C88_entries_cdist",
    "C88_same_crystal"
   ],
   "note": "No overflow. As in C87 up to the AMDs, up to 50000 points in each cell; no condition on collapsing. The neighbour search of scikit-learn is a parameter with its contract for the rounded distance (C37)."
  },
  {
   "property": "C89",
   "status": "proved",
   "theorems": [
    "C89_history",
    "C89_direct_refuted"
   ],
   "note": "Memory is a list of arrays, references are positions. C89_direct_refuted is about the private function _parse_sitesym, which only _parse_sitesyms calls, so no user of the public API meets it."
  },
  {
   "property": "C90",
   "status": "proved",
   "theorems": [
    "C90_filter",
    "C90_filter_one"
   ],
   "note": "No overflow. As in C87 and C88. In real arithmetic without the bound on rounding errors: C30."
  },
  {
   "property": "C91",
   "status": "proved",
   "theorems": [
    "C91_cdist",
    "C91_pdist",
    "C91_neighbors",
    "C91_neighbors_one"
   ],
   "note": "No overflow. As in C87, metric chebyshev. argpartition and argsort are parameters with their contracts (C37). C91_neighbors_one has the condition that no computed distance is negative, because the diagonal is 0 and an inner product in any order is known here only up to its error."
  }
 ]
}