#!/usr/bin/env python3
# Regenerates /verif/properties.jsonl from the table below.
import json, os
P = []
def p(i, title, statement, quantifier, why, anchors):
    P.append(dict(id=i, title=title, statement=statement, quantifier=quantifier,
                  why_tests_cant=why, anchors=anchors))
NN='src/amd/_nearest_neighbors.py'; CA='src/amd/calculate.py'; EM='src/amd/_emd.py'
CO='src/amd/compare.py'; IO='src/amd/io.py'; UT='src/amd/utils.py'
PS='src/amd/periodicset.py'; RE='src/amd/reconstruct.py'; CL='src/amd/cli.py'

p('C01','Integer lattice batches enumerate Z^n by radius',
  'The d-th batch of lattice points produced for dimension n consists of exactly the integer vectors v of length n with (d-1) < |v| <= d (d = 0: only the origin), each exactly once; so every integer vector appears in exactly one batch.',
  'every dimension n >= 1 and every batch number d',
  'There are infinitely many batches and the generator carries hidden state (a table of next heights) from batch to batch; a test sees finitely many batches in two or three dimensions.',
  [NN+': _integer_lattice_generator, _reflect_positive_integer_lattice, generate_concentric_cloud'])
p('C02','Cached lattice batches are history independent',
  'Whatever sequence of earlier requests (dims, m, k) was made and however far earlier callers advanced their iterators, a request returns the same initial lattice points, and an iterator yielding the same further batches, as in a fresh process.',
  'every finite history of requests and iterator advances, every dims, m, k',
  'The two caches and tee-d iterators are shared mutable state across all calls of AMD/PDD in a process; tests exercise only a handful of call orders.',
  [NN+': _integer_lattice_batches_cache, _integer_lattice_batches, memoized_generator'])
p('C03','Merging two sorted distance tables keeps exactly the smallest entries',
  'Merging a sorted row of k current distances with a sorted row of new distances returns, in order, the k smallest values of the two rows together, and never reads outside either row, whenever the smallest current distance is not larger than the smallest new one.',
  'every pair of sorted rows (any lengths >= 1) of numbers',
  'The merge walks three pointers with negative indices; only an argument over all interleavings excludes an off-by-one or an out-of-bounds read (numba does not check bounds).',
  [NN+': _merge_sorted_arrays, _merge_sorted_arrays_inds'])
p('C04','Neighbour rows are genuine distances to distinct points',
  'For every periodic set, every row used by AMD(pset, k) and PDD(pset, k) has exactly k + 1 entries in non-decreasing order, its first entry is 0, and its entries are the distances from the row\'s point to k + 1 pairwise different points of the infinite periodic set.',
  'every motif, cell (also degenerate or skewed), k and dimension for which the search returns',
  'Motifs, cells and k range over infinite domains; pruning, filtering and merging could drop or duplicate a point only for rare geometries.',
  [NN+': nearest_neighbors', CA+': AMD, PDD'])
p('C05','Neighbour rows are the true k nearest neighbours (well-conditioned cells)',
  'In dimensions 1 to 4, if the motif points have fractional coordinates in [0,1) and each cell vector satisfies sum over the other vectors of |v_i.v_j| <= |v_i|^2/2 (e.g. cubic, orthorhombic, tetragonal, hexagonal cells), then no point of the infinite periodic set outside the reported ones is closer than the last reported distance. Points may also lie outside of the cell if the vectors dominate more: fractional coordinates may differ by 1 + d, d < 1/2, if the sums are at most (1 - 2d)/(2 + 2d) |v_i|^2 (so in rounded coordinates, and up to d = 1/5 if the sums are at most |v_i|^2/4).',
  'every such motif and cell, every k',
  'The search stops at the first layer without improvement; that no later layer among infinitely many could improve is not observable by a test.',
  [NN+': nearest_neighbors', CA+': AMD, PDD'])
p('C06','Neighbour rows are the true k nearest neighbours (any cell)',
  'For every unit cell, AMD and PDD contain the distances to the k nearest neighbours in the infinite crystal.',
  'every motif inside its unit cell, every non-singular unit cell, every k',
  'The stopping rule inspects one spherical layer of integer coefficients; skewed cells for which it is wrong are a thin set that reference data does not contain.',
  [NN+': nearest_neighbors', CA+': AMD, PDD'])
p('C07','Independence of the choice of motif representatives',
  'Replacing motif points by translates along lattice vectors, which leaves the periodic set unchanged, does not change AMD or PDD.',
  'every periodic set and every choice of lattice translations of its motif points',
  'Infinitely many representatives of the same set exist; tests use the representative produced by the CIF readers.',
  [NN+': nearest_neighbors', CA+': AMD, PDD'])
p('C08','nearest_neighbors_data: distances, cloud and indices agree',
  'nearest_neighbors_data returns the same distances as nearest_neighbors; cloud[inds[i][j]] is a point of the periodic set at distance dists[i][j] from x[i]; indices within a row are distinct and in range; and cloud[i] is a lattice translate of motif[i % len(motif)].',
  'every motif, cell, k and every query set drawn from the motif',
  'Index bookkeeping across batches (offsets, partial partitions) can be wrong for only some batch counts.',
  [NN+': nearest_neighbors_data, _merge_sorted_arrays_inds'])
p('C09','The neighbour search terminates',
  'For every non-singular cell and every motif and k >= 0, the neighbour search behind AMD and PDD terminates.',
  'every motif, every non-singular cell, every k',
  'Non-termination cannot be observed by a test, only a timeout can.',
  [NN+': nearest_neighbors'])
p('C10','AMD and PDD are invariant under isometries',
  'Applying any orthogonal map and translation to a periodic set leaves AMD(pset, k) and every variant of PDD(pset, k) exactly unchanged (real arithmetic).',
  'every periodic set, every orthogonal matrix and translation vector, every k and option',
  'Isometries form a continuum; a test samples a few.',
  [CA+': AMD, PDD', NN+': nearest_neighbors'])
p('C11','AMD and PDD scale with the crystal',
  'Scaling a periodic set by s > 0 multiplies every AMD entry and every PDD distance by s and leaves the PDD weights unchanged (with the collapse tolerance scaled likewise).',
  'every periodic set, every s > 0, every k',
  'Continuum of scales.',
  [CA+': AMD, PDD', NN+': nearest_neighbors'])
p('C12','Order of motif points does not matter to AMD and uncollapsed PDD',
  'Permuting the motif points leaves AMD unchanged, and leaves PDD(..., collapse=False) (lexsorted) unchanged.',
  'every periodic set without asymmetric-unit data, every permutation of its motif, every k',
  'n! permutations of motifs of any size.',
  [CA+': AMD, PDD'])
p('C13','AMD is a non-decreasing vector of length k',
  'AMD(pset, k) has exactly k entries, all >= 0, in non-decreasing order.',
  'every periodic set (multiplicities positive), every k',
  'Infinite input domain.',
  [CA+': AMD, _average_columns_except_first'])
p('C14','PDD is a weighted distribution',
  'PDD(pset, k) has k + 1 columns; its weights are positive and sum to 1 (multiplicities summing to the motif size), and every row of distances is non-negative and non-decreasing, with or without collapsing and sorting.',
  'every periodic set, k, tolerance and option combination',
  'Infinite input domain, and the collapse step can regroup rows arbitrarily.',
  [CA+': PDD'])
p('C15','PDD_to_AMD(PDD(pset, k)) equals AMD(pset, k)',
  'Averaging a PDD by its weights gives exactly the AMD of the same periodic set, for every option of PDD; with collapsing, never off by more than twice the tolerance.',
  'every periodic set, with or without asymmetric-unit multiplicities, every k, tolerance and option combination',
  'Documented as an identity for all inputs; tests check it on reference crystals with numpy.allclose.',
  [CA+': PDD, PDD_to_AMD, AMD'])
p('C16','Row collapsing partitions the rows around leaders',
  'The groups returned by collapsing are a partition of the row indices into non-empty increasing lists ordered by their first elements; each member overlaps the first element (leader) of its group; leaders do not overlap each other; hence any two rows in a group differ by at most twice the tolerance in every column.',
  'every symmetric overlap relation on any number of rows, every tolerance',
  'Overlap relations on n rows number 2^(n(n-1)/2).',
  [CA+': _collapse_into_groups, PDD'])
p('C17','Rows in one collapse group pairwise overlap',
  'All indices in the same group overlap (docstring of the grouping function): any two rows merged into one PDD row are within collapse_tol of each other.',
  'every set of rows and every tolerance',
  'Needs chains of nearly equal rows, absent from reference data.',
  [CA+': _collapse_into_groups'])
p('C18','Lexsorted PDD rows',
  'With lexsort=True the distance rows of PDD are in non-decreasing lexicographic order (first column most significant), and the rows with their weights are a permutation of those returned with lexsort=False.',
  'every periodic set, k, tolerance',
  'Sort keys are passed in reversed order through a rotation; ties and all sizes matter.',
  [CA+': PDD'])
p('C19','return_row_groups identifies the rows',
  'With return_row_groups=True, groups[i] lists exactly the points whose neighbour rows were averaged into pdd[i], and pdd[i]\'s weight is the sum of their weights, for every option combination.',
  'every periodic set, k, tolerance, lexsort/collapse option',
  'Group list and rows are permuted separately.',
  [CA+': PDD'])
p('C20','Collapsed PDD does not depend on the order of motif points',
  'PDD(pset, k) with default collapsing is independent of the order in which motif points are listed.',
  'every periodic set and permutation of its motif',
  'Requires chains of rows at distance just within tolerance.',
  [CA+': PDD, PDD_finite, _collapse_into_groups'])
p('C21','Asymmetric unit with multiplicities gives the same AMD as the full motif',
  'If motif points in the same orbit have equal neighbour rows, AMD and PDD_to_AMD(PDD(collapse=False)) computed from the asymmetric unit and multiplicities equal those computed from the whole motif.',
  'every periodic set with consistent asymmetric-unit data, every k',
  'All space groups and motifs.',
  [CA+': AMD, PDD'])
p('C22','Finite point sets: AMD_finite and PDD_finite',
  'For m points, row i of the uncollapsed PDD_finite is the sorted list of distances from point i to the m - 1 other points; PDD_to_AMD(PDD_finite(X)) = AMD_finite(X); both are unchanged by isometries of the points.',
  'every finite point set of any size and dimension, every option',
  'Infinite input domain; duplicates of points make the dropped zero column delicate.',
  [CA+': AMD_finite, PDD_finite, PDD_to_AMD'])
p('C23','AMD is continuous under perturbation of atoms',
  'If every motif point moves by at most eps (same cell), each entry of the list of k nearest-neighbour distances, and so each AMD entry, changes by at most 2 eps.',
  'every periodic set and every perturbation, every k, every eps >= 0',
  'A claim about all perturbations.',
  [CA+': AMD', NN+': nearest_neighbors'])
p('C24','Point packing coefficient and AMD_estimate',
  'PPC satisfies PPC^n * m * V_n = |det cell| where V_n is the unit n-ball volume constant (V_n = 2 pi/n V_(n-2), V_0 = 1, V_1 = 2); it scales linearly with the crystal, is unchanged by unimodular changes of cell and by taking a supercell; AMD_estimate[i] = PPC (i+1)^(1/n).',
  'every dimension n >= 1, cell, motif size and scale',
  'Formula with parity split and factorials for every n.',
  [CA+': PPC, AMD_estimate'])
p('C25','The EMD solver never leaves its arrays and keeps a feasible flow',
  'For every pair of weight vectors and cost matrix (positive weights, non-negative costs), every intermediate state of the solver is a spanning tree with consistent parent/size/thread tables, all array accesses are in bounds, the integer flow is conserved at every node and stays within 0 and capacity.',
  'every problem size, weights and costs, after any number of pivots',
  'The thread tables are updated in place along data-dependent paths; an inconsistent table after some pivot sequence would silently read wrong memory.',
  [EM+': network_simplex, _find_cycle, _find_leaving_edge, _remove_edge, _make_root, _add_edge, _update_potentials'])
p('C26','The transport plan is a sub-coupling of the weights',
  'The returned transport plan has non-negative entries, entry (i,j) at most min(weight_i, weight_j), row sums and column sums at most the weights (one row or column may exceed its weight by at most (number of rows - 1) * 1e-8, where the rounding error is put), and the total mass not shipped is at most max(number of rows) * 1e-8.',
  'every pair of weight vectors summing to 1 and every non-negative cost matrix',
  'Fixed-point truncation errors depend on all weights at once.',
  [EM+': network_simplex', CO+': EMD'])
p('C27','The returned EMD is the minimum transport cost',
  'When the solver returns, the cost of the returned plan is minimal among all (real-valued) plans with the same row and column sums and the same arc capacities, in the fixed-point problem.',
  'every pair of weight vectors, cost matrix, and every competing plan',
  'Optimality compares with a continuum of plans.',
  [EM+': network_simplex', CO+': EMD'])
p('C28','EMD of a PDD with itself is 0',
  'EMD(pdd, pdd) = 0 for every PDD, and more generally when one PDD is a row permutation of the other.',
  'every PDD with positive weights',
  'Infinite input domain, depends on optimality.',
  [CO+': EMD', EM+': network_simplex'])
p('C29','EMD is symmetric',
  'EMD(p, q) = EMD(q, p).',
  'every pair of PDDs',
  'Infinite input domain; the fixed-point correction treats the two sides differently.',
  [CO+': EMD', EM+': network_simplex'])
p('C30','AMD distance is a lower bound for EMD',
  'For every transport plan with the given weights as marginals, its cost with the Chebyshev row metric is at least the Chebyshev distance between the weighted averages (AMDs) of the two PDDs; so the AMD distance never exceeds the exact Earth mover\'s distance.',
  'every pair of PDDs with equal numbers of columns',
  'Infinite input domain.',
  [CO+': EMD, AMD_cdist', CA+': PDD_to_AMD'])
p('C31','Exact Earth mover\'s distance satisfies the triangle inequality',
  'The optimal transport cost between weighted distributions with a metric ground distance satisfies EMD(p,r) <= EMD(p,q) + EMD(q,r).',
  'all triples of PDDs with positive weights of equal total',
  'Infinite input domain.',
  [CO+': EMD'])
p('C32','The EMD solver terminates',
  'network_simplex returns on every pair of positive weight vectors and non-negative cost matrix.',
  'every input',
  'Degenerate pivots can cycle; non-termination is unobservable by testing.',
  [EM+': network_simplex, _find_leaving_edge'])
p('C33','Row order of PDDs does not change the optimal cost',
  'Permuting the rows (with weights) of either PDD does not change the value returned by EMD.',
  'every pair of PDDs and permutations',
  'n! permutations.',
  [CO+': EMD', EM+': network_simplex'])
p('C34','low_memory AMD comparison equals the default',
  'AMD_cdist and AMD_pdist with low_memory=True return the same values in the same positions as without, and raise for any metric other than chebyshev.',
  'every collection of AMDs of equal length',
  'Block index arithmetic for all collection sizes.',
  [CO+': AMD_cdist, AMD_pdist'])
p('C35','PDD comparison matrices: positions and parallel equivalence',
  'PDD_cdist[i][j] = EMD(pdds[i], pdds_[j]); PDD_pdist stores EMD(pdds[i], pdds[j]) (i<j) at condensed position of (i,j) and squareform recovers it; results do not depend on n_jobs, backend or verbose, for any completion order of workers.',
  'every collection, every n_jobs, every schedule of workers',
  'All sizes and schedules.',
  [CO+': PDD_cdist, PDD_pdist'])
p('C36','compare() returns the labelled distance matrix',
  'compare(A) has entry (i,j) equal to the distance between the invariants of crystals i and j, symmetric with zero diagonal, rows and columns labelled by names in reading order; compare(A, B) likewise; by not AMD/PDD or an empty collection raises ValueError.',
  'every collection of crystals, by, k',
  'Option plumbing over all inputs.',
  [CO+': compare'])
p('C37','n_neighbors returns the nearest other items',
  'For each item, the n_neighbors results are n distinct other items (never the item itself) with their distances in non-decreasing order, and no item left out is closer; ties and exact duplicates included.',
  'every distance matrix with zero diagonal, every admissible n, every tie-breaking of the partial sort',
  'argpartition order is unspecified; duplicates may hide the item itself.',
  [CO+': _neighbors_from_distance_matrix, _nearest_items, _nearest_neighbors_dataframe'])
p('C38','n_neighbors can ask for all other items',
  'n_neighbors = (number of other items) is answered, not rejected.',
  'every collection and n up to its size',
  'Boundary of a library call precondition.',
  [CO+': _neighbors_from_distance_matrix'])
p('C39','Command line --nearest selects nearest neighbours',
  'amd --nearest n produces the n_neighbors=n output of compare.',
  'every command line',
  'The option is silently swallowed by **kwargs; no test covers the CLI.',
  [CL+': main', CO+': compare'])
p('C40','Symmetry operation strings are parsed correctly',
  'For every symmetry operation whose matrix has entries -1, 0, 1 and whose translation is a decimal or a fraction, every xyz string listing in each component the signed letters and the translation in any order, with any blanks and letter case, is parsed to exactly that matrix and translation.',
  'every operation and every such spelling of it',
  'Unbounded set of strings.',
  [IO+': _parse_sitesym, _parse_sitesyms'])
p('C41','Numbers with uncertainty brackets',
  'str2float of a numeral followed by a bracketed uncertainty equals str2float of the numeral alone.',
  'every numeral string without brackets and every bracket content',
  'Unbounded strings, greedy regular expression.',
  [IO+': str2float'])
p('C42','Missing values are not turned into data',
  'A site whose coordinate is ? or . is removed, a ? or . cell parameter raises ParseError, and a ? or . occupancy is treated as full occupancy.',
  'every CIF block',
  'Needs CIFs with missing markers; none in the tests.',
  [IO+': str2float, periodicset_from_gemmi_block'])
p('C43','Readers yield exactly the convertible items, in order',
  'Iterating a reader yields the conversions of exactly those items that convert, in file order; an item raising ParseError is skipped without affecting the others; any other exception propagates at that item; read() returns the single item or the list.',
  'every sequence of items and every converter outcome',
  'All interleavings of failures.',
  [IO+': _Reader.__next__, _Reader.read'])
p('C44','A warning is shown for every skipped crystal',
  'With show_warnings=True (default), a crystal skipped because of a ParseError (e.g. disorder) produces a warning.',
  'every sequence of items',
  'Warnings are recorded inside a context manager and dropped.',
  [IO+': _Reader.__next__'])
p('C45','Duplicate sites are removed modulo the lattice',
  'Sites kept by the duplicate filter are pairwise different modulo 1 beyond tolerance, the first of equal sites is kept, and every dropped site coincides within tolerance with an earlier site.',
  'every list of fractional coordinates and tolerance',
  'Infinite domain; chains of near-duplicates.',
  [IO+': _unique_sites'])
p('C46','Expansion by symmetry: motif, multiplicities, indices and types are consistent',
  'The motif built by a CIF reader lists, for each asymmetric site in order, its symmetric images without duplicates; multiplicities are positive and sum to the motif size; motif[asym_unit[i]] is the first image of site i; types has one entry per motif point, equal within an orbit; every image of every site is represented in the motif.',
  'every asymmetric unit, list of symmetry operations and tolerance',
  'All space groups and sites.',
  [IO+': _expand_asym_unit, _expand_sites, _reduce_expanded_sites, _reduce_expanded_equiv_sites, periodicset_from_gemmi_block'])
p('C47','Disorder and hydrogen options',
  'disorder="skip" raises ParseError iff some site is disordered; "ordered_sites" yields only sites without disorder; "all_sites" drops none; remove_hydrogens leaves no hydrogen; a block with no site left raises ParseError.',
  'every block of sites with labels, occupancies and types, every option',
  'Option combinations over all site lists.',
  [IO+': periodicset_from_gemmi_block, _has_disorder'])
p('C48','All CIF backends apply the same skip rule',
  'With disorder="skip" and remove_hydrogens=True, the gemmi and ase/pymatgen readers skip the same crystals.',
  'every list of sites',
  'Needs hydrogens with partial occupancy.',
  [IO+': periodicset_from_gemmi_block, periodicset_from_ase_cifblock, periodicset_from_pymatgen_cifblock'])
p('C49','Refcode families are de-duplicated in order',
  'The list of refcodes read for several families contains each hit exactly once, in order of first occurrence.',
  'every list of search results',
  'All lists.',
  [IO+': CSDReader.__init__'])
p('C50','Atomic symbols from labels',
  'The symbol extracted from a label is empty or one or two letters, the first upper case and the second lower case, and it is the first maximal (at most two letter) run of letters of the label.',
  'every label string',
  'Unbounded strings.',
  [IO+': _atomic_symbols_from_labels'])
p('C51','diameter is the largest distance within the unit cell',
  'In 2 and 3 dimensions diameter(cell) bounds the distance between any two points of the cell and is attained by two of its vertices.',
  'every cell and every two points in it',
  'Continuum of points.',
  [UT+': diameter'])
p('C52','cellpar_to_cell and cell_to_cellpar are inverse',
  'For positive lengths and angles strictly between 0 and 180 degrees, cellpar_to_cell either raises ValueError (when no such cell exists) or returns a lower-triangular cell whose lengths and angles, as computed by cell_to_cellpar, are the given ones, and whose volume is given by the usual formula; likewise in 2D.',
  'every cell parameter vector',
  'Continuum of parameters; special branch near 90 degrees.',
  [UT+': cellpar_to_cell, cell_to_cellpar, cellpar_to_cell_2D, cell_to_cellpar_2D'])
p('C53','random_cell retries until the drawn parameters form a cell',
  'random_cell(dims=3) redraws when the drawn angles do not form a cell and never raises for valid bounds.',
  'every sequence of random draws',
  'Random draws; default bounds never trigger it.',
  [UT+': random_cell'])
p('C54','Equality check of periodic sets',
  'PeriodicSet._equal_cell_and_motif(a, b) returns True only if every point of each motif has a point of the other motif within tolerance modulo the lattice; it is reflexive and symmetric in the motifs.',
  'every pair of motifs of the same shape and cell',
  'A wrong quantifier order is invisible on equal or very different inputs.',
  [PS+': PeriodicSet._equal_cell_and_motif'])
p('C55','Reconstruction: circle and sphere intersection',
  'A point returned by the 2D (3D) intersection routine lies at the requested distances from the two (three) centres and at the requested distance from the origin up to the precision; None is returned in 2D only if no point satisfies all three.',
  'every choice of centres (not coincident / collinear) and radii',
  'Continuum of configurations.',
  [RE+': _bilaterate, _trilaterate'])
p('C56','Reconstruction: tolerance filters',
  'unique-within-tolerance keeps the first of each cluster and leaves kept values pairwise at least prec apart; remove-values keeps exactly the values not within prec of a removed value; shared-values returns exactly values of the first list within prec of some value in the second.',
  'every list of numbers and precision',
  'All lists.',
  [RE+': _unique_within_tol, _remove_vals, _shared_vals'])
p('C57','PDD_reconstructable has enough columns',
  'Every row of PDD_reconstructable ends with a value >= 2 * diameter(cell), all other columns contain a value below it, and the rows list the distances from the motif points to their nearest points of the generated cloud.',
  'every 2D/3D periodic set for which the search returns',
  'Infinite domain; column choice relies on two different snapshots of the distance table.',
  [NN+': nearest_neighbors_minval', CA+': PDD_reconstructable'])
p('C58','Neighbour queries for arbitrary points stay in bounds',
  'nearest_neighbors(motif, cell, x, k) never reads outside its arrays for query points x that are not motif points.',
  'every motif, non-singular cell, query set x and k >= 1',
  'numba does not check bounds, so an out-of-bounds read is silent; it only happens when a later layer is closer than everything found before.',
  [NN+': nearest_neighbors, _merge_sorted_arrays'])
p('C59','Blocks with missing or malformed data are skipped',
  'A CIF block with missing or malformed cell parameters or coordinates is skipped (ParseError) and the remaining crystals of the file are still read, with every backend.',
  'every list of blocks',
  'Each backend raises different exceptions for different kinds of bad data.',
  [IO+': _Reader.__next__, periodicset_from_gemmi_block, periodicset_from_ase_cifblock, periodicset_from_pymatgen_cifblock'])
p('C60','show_warnings is local to a reader',
  'A reader with show_warnings=False shows no warnings, and does not change what other readers show.',
  'every pair of readers and interleaving of their steps',
  'Global state of the warnings module; visible only with two readers in one process.',
  [IO+': _Reader.__next__'])
p('C61','CifReader checks its arguments',
  'CifReader raises unless disorder is one of the three documented values, the path exists, the reader name is known, and heaviest_component/molecular_centres are used with ccdc only (and ccdc is installed).',
  'every combination of arguments',
  'All strings.',
  [IO+': CifReader.__init__'])
p('C62','Ready-made periodic sets',
  'PeriodicSet.cubic(s, d) has one point at the origin and d orthogonal cell vectors of length |s|; hexagonal(s) has the angles and lengths of a hexagonal cell of positive volume and raises NotImplementedError unless d is 2 or 3; _random(n) returns n points inside of a cell whose lengths and angles respect the bounds.',
  'every scale, dimension, number of points, bounds within the defaults and sequence of random draws',
  'Continuum of draws.',
  [PS+': PeriodicSet.cubic, hexagonal, _random'])
p('C63','Reconstruction: points which are returned fit their rows',
  'reconstruct(pdd, cell) returns as many points as the PDD has rows, the first one the origin. Each further point is, up to 1e-10, at a distance from the origin shared by its row and the first one, at shared distances from as many independent lattice vectors as there are dimensions, not nearer to another lattice vector searched than to the origin, and from the third point on at a distance from the second point shared by the rows of both. The points lie in the cell, distances of the lattice up to the diameter of the cell are left out of the comparison, and the failure of the search is a RuntimeError.',
  'every 2D/3D cell and PDD of numbers which are not negative for which the search returns',
  'Depends on every number in the PDD; the search is a choice over all combinations.',
  [RE+': reconstruct, _find_second_point, _find_further_point, _neighbor_set'])
p('C64','PDD_reconstructable lists all distances below twice the diameter',
  'PDD_reconstructable returns a matrix, and for every motif point each distance to another point of the infinite set which is less than 2 * diameter(cell) is in its row.',
  'every periodic set with a non-singular cell of dimension 2 or 3',
  'The search leaves out lattice vectors by a bound which later grows; the cases where this matters are rare among hand-made tests, and single-point motifs are not in the test data.',
  ['src/amd/_nearest_neighbors.py: nearest_neighbors_minval','src/amd/calculate.py: PDD_reconstructable'])
p('C65','AMD and PDD grow like PPC times the root of k',
  'AMD_k divided by the n-th root of k tends to PPC as k grows, and so does every row of the PDD (docstring of PPC). Moreover AMD and every row of the PDD differ from AMD_estimate by at most a constant which depends on the periodic set only.',
  'every periodic set of any dimension with a non-singular cell, every k, collapse tolerance and option',
  'A statement about a limit: no finite list of k shows it.',
  ['src/amd/calculate.py: PPC, AMD_estimate, AMD, PDD','src/amd/_nearest_neighbors.py: nearest_neighbors'])
p('C66','For any cell the distances are wrong by at most a bounded amount',
  'nearest_neighbors returns distances to k different points such that no other point is nearer than one returned by more than the sum of the lengths of the cell vectors and the diameter of the motif. So each entry is at least the true nearest distance and exceeds it by at most this; the same holds for AMD.',
  'every periodic set of any dimension, every cell however thin, every k',
  'C06 shows that the distances can be wrong; how far is a question over all cells.',
  ['src/amd/_nearest_neighbors.py: nearest_neighbors','src/amd/calculate.py: AMD'])
p('C67','AMD and PDD of a crystal do not depend on how its symmetry is described',
  'A set made from an asymmetric unit and symmetry operations is always well formed, so AMD returns on it. When the operations form a group of isometries of the lattice and images within the tolerance coincide, AMD and PDD computed from the asymmetric unit with its multiplicities are those of the whole motif. Two descriptions of one crystal - its full group and few sites, a subgroup and more, or all sites and no symmetry, with sites repeated or not, read with gemmi, ase or pymatgen - give the same motif up to order, the same AMD and the same weight of every PDD row.',
  'every finite set of sites, every group, every two descriptions in one cell, every k; dimension at most 4 and a half-dominant cell where distances are compared',
  'Tests compare a few structures with one description each; two descriptions of the same crystal and all groups are not enumerable.',
  ['src/amd/io.py: _expand_asym_unit','src/amd/io.py: periodicset_from_gemmi_block','src/amd/calculate.py: AMD','src/amd/calculate.py: PDD'])
p('C68','Crystals of csd-python-api: options respected',
  'periodicset_from_ccdc_crystal expands exactly the atoms of the asymmetric unit which the options leave: no H or D with remove_hydrogens, no atom with disorder with ordered_sites, none without coordinates (with a warning), and only the heaviest component when asked. With skip a crystal or atom with disorder gives ParseError, as do a missing cell parameter and no atoms left; an entry is refused without a 3D structure or, with skip, if marked as disordered. Without symmetry operators the identity is used, with a warning.',
  'every crystal and entry, every list of atoms with known symbols and readable occupancies, every combination of options',
  'csd-python-api needs a licence, so none of this is covered by the test suite; options combine.',
  ['src/amd/io.py: periodicset_from_ccdc_crystal','src/amd/io.py: periodicset_from_ccdc_entry','src/amd/io.py: _has_disorder'])
p('C69','The heaviest component is kept',
  '_heaviest_component_ccdc returns the component with the greatest sum of atomic weights times occupancies, the first of these if there are several; atoms without a weight count as 0, without an occupancy as fully occupied.',
  'every list of components',
  'Ties and atoms without data are rare in real crystals, and the test suite has none.',
  ['src/amd/io.py: _heaviest_component_ccdc'])
p('C70','Molecular centres',
  'With molecular_centres=True the motif consists of the centres of mass of the molecules in the cell, each once up to the tolerance; ParseError is raised if there are none (docstring of periodicset_from_ccdc_crystal).',
  'every crystal and all options',
  'Centres of mass and of geometry agree for symmetric molecules; needs a licence to run.',
  ['src/amd/io.py: _frac_molecular_centres_ccdc','src/amd/io.py: periodicset_from_ccdc_crystal'])
p('C71','ase.Atoms: all atoms, their types, and the object unchanged',
  'periodicset_from_ase_atoms gives a periodic set of all atoms (without hydrogen if asked), with the type of every motif point, with or without a spacegroup in atoms.info, and does not change the object passed.',
  'every Atoms object and every group of symmetry operations',
  'Whether order and number of atoms survive depends on the symmetry; tests would have to cover all groups.',
  ['src/amd/io.py: periodicset_from_ase_atoms','src/amd/io.py: _expand_asym_unit'])
p('C72','pymatgen.Structure: options respected, invariants of all sites',
  'periodicset_from_pymatgen_structure gives the sites of the conventional cell of the structure left by the options, AMD and PDD those of all of them, the types those of the elements; with skip disorder gives ParseError; ordered_sites removes atoms with disorder, all_sites includes all atoms; the structure passed is not changed.',
  'every structure, every options, any choice of conventional cell',
  'Partially occupied and mixed sites and their combinations with the options are not in the tests.',
  ['src/amd/io.py: periodicset_from_pymatgen_structure'])
p('C73','EMD is not harmed by the size of its integers',
  'The sums, costs and potentials of network_simplex fit the 64-bit integers it uses, so EMD returns the value of the algorithm on unbounded integers, which is the Earth mover\'s distance up to the accuracy of C27.',
  'every two PDDs, every size and all distances between their rows',
  'The cost of the artificial edges is three times the sum of all costs; it only overflows for PDDs far larger than any test.',
  ['src/amd/_emd.py: network_simplex','src/amd/_emd.py: _reduced_cost','src/amd/_emd.py: _update_potentials','src/amd/compare.py: EMD'])
p('C74','Rounding errors stay small',
  'With floating-point operations instead of exact ones, sums and scalar products evaluated in any order and perhaps with fused multiplications and additions, and divisions perhaps replaced by multiplications with reciprocals (as numba may do under fastmath), nearest_neighbors, AMD and PDD still return, and the distances and averages they return differ from the exact ones by at most a constant times the unit roundoff times the distance plus the size of the motif: rounded tests of distances never lose a neighbour that matters.',
  'every arithmetic with relative error at most 1e-4 and underflow, in particular binary64 without overflow; every periodic set of C05 with coordinates of the format',
  'Which points are visited depends on rounded comparisons; a wrong early stop shows only for particular coordinates.',
  ['src/amd/_nearest_neighbors.py: nearest_neighbors','src/amd/_nearest_neighbors.py: _lattice_to_cloud','src/amd/_nearest_neighbors.py: _cdist_sqeulcidean','src/amd/calculate.py: AMD','src/amd/calculate.py: PDD','src/amd/calculate.py: _average_columns_except_first'])
p('C75','Rounding errors stay small for finite sets',
  'With floating-point operations, sums in any order, AMD_finite and PDD_finite of points in at most 4 dimensions return averages and distances that differ from the exact ones by at most a constant times the unit roundoff times the distance (plus underflow). When no two rows differ by nearly exactly the tolerance, the same points are collapsed as in exact arithmetic and the weights have small relative errors.',
  'every arithmetic with relative error at most 1e-4 and underflow, in particular binary64 without overflow; every non-empty finite set of at most 1/(100 u) points',
  'Sorting permutes rounded distances differently from exact ones and collapsing compares rounded rows; errors would show only for particular coordinates.',
  ['src/amd/calculate.py: AMD_finite','src/amd/calculate.py: PDD_finite','src/amd/calculate.py: _collapse_into_groups'])
p('C76','Rounding errors stay small in the Earth mover\'s distance',
  'With floating-point operations and 64-bit integers, EMD of two matrices that are close to exact PDDs with weights that are multiples of 1/m returns, and the value is within a stated bound of the exact Earth mover\'s distance of the exact PDDs. Composed with PDD: computing two PDDs and their EMD in binary64 gives a value within 5 (m1 + m2 + 3) (D + b + 2) units of the 8th decimal of the exact distance, for motifs of up to 5000 points within b of the origin and distances up to D; sums and scalar products may be evaluated in any order.',
  'every arithmetic with relative error at most 1e-4 and underflow, in particular binary64 without overflow; every order of additions; all pairs of periodic sets of the stated size',
  'Truncation of weights and costs to 8 decimals is discontinuous in the rounded inputs and the solver pivots differently; a bound of the error needs an argument about all plans, not sampled ones.',
  ['src/amd/_emd.py: network_simplex','src/amd/compare.py: EMD','src/amd/calculate.py: PDD'])
p('C77','Operations from the space group',
  'If a CIF block lists no symmetry operations, they are those of its space group: of the name under _space_group_name_H-M_alt or else under _symmetry_space_group_name_H-M; without a name, of the number under _space_group_IT_number or else under _symmetry_Int_Tables_number; with neither, only the identity is used and a warning says so. gemmi, ase and pymatgen give the same operations whenever their tables agree on the name or number used; for pymatgen blanks and underscores in names do not matter.',
  'every block without listed operations, all tables of space groups',
  'CIFs without listed operations are rare; the tests contain few of them and each for one backend.',
  ['src/amd/io.py: periodicset_from_gemmi_block','src/amd/io.py: periodicset_from_ase_cifblock','src/amd/io.py: _get_syms_pymatgen','src/amd/io.py: _CIF_TAGS'])
p('C78','A space group given in an unknown way does not hide one given in a known way',
  'If the name of the space group is not in the tables, or a number is marked as missing, all readers go on with the next tag that gives the group.',
  'every block without listed operations, all tables of space groups',
  'Needs a block with both a bad name (or number) and a good number.',
  ['src/amd/io.py: periodicset_from_gemmi_block','src/amd/io.py: periodicset_from_ase_cifblock','src/amd/io.py: _get_syms_pymatgen'])
p('C79','The Earth mover\'s distance of PDDs is continuous under perturbation of atoms',
  'If every point of a periodic set moves by at most eps (same cell, points may leave the cell and come back at the other side, be listed in another order and lose or gain symmetry), some plan takes the PDD of the first set to that of the second at a cost of at most 2 eps plus twice the collapse tolerance for each PDD that is collapsed. So the EMD computed is at most that plus the accuracy of the solver, also in binary64, and every AMD entry changes by at most 2 eps. The constant 2 is attained.',
  'every pair of periodic sets with the cells of C05, every displacement, asymmetric units, k and tolerances',
  'A claim about all displacements, including those that break the symmetry or cross the boundary of the cell.',
  ['src/amd/calculate.py: PDD','src/amd/calculate.py: AMD','src/amd/compare.py: EMD','src/amd/_emd.py: network_simplex'])
p('C80','Rounding errors stay small in reading crystals',
  'With floating-point operations, sums and scalar products in any order, the expansion of the asymmetric unit finds the same sites as in exact arithmetic: the same types, multiplicities, positions of the asymmetric unit and warnings. Every point read is within 15 u (s + 1) L of the exact point up to a lattice vector, for unit roundoff u, coordinates of images with terms up to s and a cell of size L. The AMD computed in floating point of the crystal read in floating point is within a stated bound of the exact AMD of the exact crystal.',
  'every arithmetic with relative error at most 1e-4 and underflow, in particular binary64 without overflow; every cell as in C05, asymmetric unit, list of operations and k such that no two images are at the limit of the tolerance',
  'Near 0 and 1 rounding moves coordinates to the other side of the cell; overlapping and nearly overlapping images are compared with the tolerance after rounding.',
  ['src/amd/io.py: _expand_asym_unit','src/amd/io.py: _expand_sites','src/amd/io.py: _unique_sites','src/amd/io.py: periodicset_from_gemmi_block','src/amd/calculate.py: AMD'])
p('C81','Fractional coordinates are reduced to the half-open unit interval',
  'After np.mod(x, 1) all fractional coordinates of the motif that is read are at least 0 and below 1 and differ from x by an integer.',
  'every coordinate',
  'Fails only for negative numbers below half of the unit roundoff, such as -1e-17 in place of 0.',
  ['src/amd/io.py: _expand_sites'])
p('C82','Deforming the cell a little changes the invariants in proportion',
  'If the cell is deformed by a linear map that changes lengths by at most the share delta, with the points in it, also turned, reflected or shifted, and the points then move by at most eps, every entry a of the AMD changes by at most delta a + 2 eps and the Earth mover\'s distance of the PDDs is at most delta times the last entry of the AMD plus 2 eps plus what collapsing and the accuracy of EMD add; the bound of the AMD is attained. The share delta is at most the sum of the lengths of the changes of the cell vectors times the length of the longest column of the inverse of the cell. In particular a copy of a crystal stored in another orientation, with another origin and other representatives of its points differs by the errors of the numbers stored only.',
  'all pairs of periodic sets in at most 4 dimensions with cells as in C05, any k, every order of the motifs, any asymmetric units, exactly and in binary64',
  'Unit cells measured at another temperature differ in all parameters; which points are nearest changes with them, so finitely many deformations do not show it.',
  ['src/amd/calculate.py: AMD','src/amd/calculate.py: PDD','src/amd/compare.py: EMD','src/amd/_nearest_neighbors.py: nearest_neighbors'])
p('C83','Rounding errors stay small in computing the cell from its parameters',
  'With floating-point operations and library functions cos and sin with errors of at most 2 u, cellpar_to_cell and cellpar_to_cell_2D return a lower triangular cell with positive diagonal, all of whose lengths differ by at most the share 1600 u (110 u in two dimensions) from those of any cell with the given lengths and angles. So the AMD computed in floating point of a crystal given by lengths, angles, an asymmetric unit and operations is within a stated bound of the exact AMD of that crystal.',
  'every cell as in C05, all lengths and angles, all arithmetics with relative errors of at most 1e-6, in particular binary64 without overflow; for the AMD lengths of at least 1/500 that add up to at most 900',
  'Errors of cosines are divided by the sine of an angle and pass through a square root; angles near 90 degrees are replaced by right angles.',
  ['src/amd/utils.py: cellpar_to_cell','src/amd/utils.py: cellpar_to_cell_2D','src/amd/io.py: periodicset_from_gemmi_block','src/amd/calculate.py: AMD'])
p('C84','Reconstruction: crystals in general position are found',
  'If the rows hold the distances of a crystal, up to one that reaches some lattice vectors of the neighbour set from every point, and the crystal is in general position, reconstruct(pdd, cell) raises no error and returns the motif of the crystal, or all of it inverted at the first point, up to lattice vectors, in the order of the rows. General position: distances which are not of the same pair of points, and lattice lengths, are told apart at 1e-10; no third point fits the distances of a pair; the distance from the second point tells each further point from its inverse; the spheres compared do not nearly touch from outside.',
  'every 2D/3D cell, crystal in general position with any number of points, and every set of rows with these distances',
  'The search tries all combinations of shared distances and bases and returns the first which fits; that no wrong one comes first depends on all numbers at once.',
  [RE+': reconstruct, _find_second_point, _find_further_point, _bilaterate, _trilaterate, _unique_within_tol, _remove_vals, _shared_vals'])
p('C85','EMD with other metrics than the default',
  'EMD(pdd, pdd_, metric) for any metric without negative values returns, and the result is within the accuracy of C27 of the Earth mover\'s distance with this metric between rows. If the metric is one (symmetric, triangle inequality, 0 for equal rows), EMD is 0 for PDDs with the same rows, symmetric and meets the triangle inequality up to the accuracy. The named metrics chebyshev, cityblock, euclidean and minkowski are metrics with the values their names say; EMD with chebyshev is the smallest, EMD with minkowski decreases with its order, and with each the averages of the distances differ by at most EMD. sqeuclidean gives no metric.',
  'all PDDs, every metric between rows, minkowski of every positive integer order',
  'The tests use the default metric only.',
  ['src/amd/compare.py: EMD','src/amd/_emd.py: network_simplex'])
p('C86','Crystals compared from the contents of their files',
  'Reading two crystals (expanding the asymmetric unit by the operations, wrapping, converting to Cartesian), computing their PDDs and the Earth mover\'s distance of these, all in floating point, gives a number within a stated bound of the exact distance of the crystals the contents describe. If two contents describe the same crystal in one cell, one with and one without its symmetry, or by other representatives or another order of the sites, this number is at most what collapsing and rounding errors add; if the points differ by at most eps, at most 2 eps more.',
  'every cell as in C05 in at most 4 dimensions, all sites and operations, any k and options of PDD, all arithmetics with small relative errors, in particular binary64 without overflow; no images at the limit of the site tolerance, and no rows at the limit of collapsing',
  'The errors of reading pass through the search, the merging of rows, the rounding of weights to integers and the network simplex; the tests compare a few files with stored results.',
  ['src/amd/io.py: _expand_asym_unit','src/amd/io.py: periodicset_from_gemmi_block','src/amd/calculate.py: PDD','src/amd/_nearest_neighbors.py: nearest_neighbors','src/amd/compare.py: EMD','src/amd/_emd.py: network_simplex'])
p('C87','Crystals compared from the lengths and angles of their cells',
  'From lengths, angles, an asymmetric unit and operations to the Earth mover\'s distance of the PDDs, with every step in binary64: the number returned is within a stated bound of the exact distance of the crystals, whichever cells with these lengths and angles are used to define the latter. Two descriptions of one crystal, with and without symmetry, are at most as far apart as collapsing and rounding errors add; if the cell of the second is deformed by the share delta, turned or reflected, and its points move by at most eps, at most delta times the last entry of the AMD plus 2 eps more.',
  'all lengths of at least 1/500 that add up to at most 900, all angles of cells as in C05, all sites and operations, any k and options of PDD; binary64 without overflow, library functions cos and sin right up to 2 u; no images at the limit of the site tolerance, and no rows at the limit of collapsing',
  'All rounding errors of the program come together here, and they pass through decisions of the search, of the merging of rows and of the network simplex.',
  ['src/amd/utils.py: cellpar_to_cell','src/amd/io.py: _expand_asym_unit','src/amd/io.py: periodicset_from_gemmi_block','src/amd/calculate.py: PDD','src/amd/_nearest_neighbors.py: nearest_neighbors','src/amd/compare.py: EMD','src/amd/_emd.py: network_simplex'])
p('C88','Distance matrices and nearest neighbours of AMDs in floating point',
  'From lengths, angles, asymmetric units and operations of lists of crystals to the matrix of Chebyshev distances of their AMDs, with every step in binary64: AMD_cdist and AMD_pdist, with low_memory and without, return matrices of the right shape whose entries are within a stated bound of the exact distances, each in its place; two descriptions of one crystal are at most that far apart. The nearest neighbours of AMDs that are listed are nearest up to twice the bound, and are the exact ones if the exact distances leave a larger gap.',
  'all lists of crystals as in C87, any k, any number of neighbours, all arithmetics with small relative errors, in particular binary64 without overflow, every order of neighbours at equal distance',
  'Rounding errors may change the order of close distances, so lists of neighbours can be compared with stored ones only up to such changes; the tests have a few crystals.',
  ['src/amd/compare.py: AMD_cdist','src/amd/compare.py: AMD_pdist','src/amd/compare.py: _nearest_items','src/amd/calculate.py: AMD','src/amd/utils.py: cellpar_to_cell','src/amd/io.py: _expand_asym_unit'])
p('C89','The cache of symmetry operations is not observable',
  'After any history of calls of _parse_sitesyms, failed ones included, and of writes into the arrays these returned, a call gives the matrices and vectors of parsing every text anew, or the exception this raises; the arrays are new ones, and arrays returned earlier keep their contents. If a caller used _parse_sitesym itself and wrote into its result, later results would be wrong.',
  'all finite histories of calls and writes, all lists of texts',
  'The cache lives as long as the process and returns references to the same arrays; an error needs a certain sequence of calls and writes.',
  ['src/amd/io.py: memoize','src/amd/io.py: _parse_sitesym','src/amd/io.py: _parse_sitesyms'])
p('C90','Comparing AMDs first loses no similar crystals, in floating point',
  'From lengths, angles, asymmetric units and operations, with every step in binary64: no entry of the matrix of AMD_cdist or AMD_pdist exceeds the Earth mover\'s distance computed for the PDDs of the two crystals by more than twice the tolerance of each that is collapsed and a stated bound on the rounding errors. So a search for all crystals with an Earth mover\'s distance of at most t needs to look only at those with a distance of AMDs of at most t and these errors.',
  'all lists of crystals as in C87 with up to 5000 points each, any k, with low_memory and without, with and without collapsing',
  'The two distances are computed by different code, and each has its own rounding errors; a filter that loses one of many crystals is not noticed on a few examples.',
  ['src/amd/compare.py: AMD_cdist','src/amd/compare.py: AMD_pdist','src/amd/compare.py: EMD','src/amd/calculate.py: AMD','src/amd/calculate.py: PDD'])
p('C91','Matrices of Earth mover\'s distances and nearest neighbours by PDD, in floating point',
  'From lengths, angles, asymmetric units and operations, with every step in binary64: PDD_cdist and PDD_pdist return, for every number of jobs and every order in which the pairs are finished, a matrix whose entries are within a stated bound of the exact Earth mover\'s distances of the exact PDDs, at the documented positions. The neighbours found in it are n different crystals in ascending order of distance, with distances within that bound, and no crystal left out is nearer by more than twice the bound.',
  'all lists of crystals as in C87 with up to 5000 points each, any k, with and without collapsing, every schedule of the jobs, every argpartition and argsort',
  'It takes the errors of all steps together; the order in which parallel jobs finish cannot be chosen in a test, and stored results cover a few crystals.',
  ['src/amd/compare.py: PDD_cdist','src/amd/compare.py: PDD_pdist','src/amd/compare.py: EMD','src/amd/compare.py: _neighbors_from_distance_matrix','src/amd/calculate.py: PDD','src/amd/utils.py: cellpar_to_cell','src/amd/io.py: _expand_asym_unit'])
out = os.path.join(os.path.dirname(os.path.abspath(__file__)), '..', 'properties.jsonl')
with open(out,'w') as f:
    for x in P: f.write(json.dumps(x)+'\n')
print(len(P))
