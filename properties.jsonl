{"id": "C01", "title": "Z2 is the two-element field", "statement": "Taking the absent coefficient (None) as 0 and the Z2 value as 1, `+`, `*`, `additive_inverse`, `mult_inverse`, `one` make Option<Z2> the field with two elements; in particular Z2+Z2 is None and Z2+None is Some(Z2).", "quantifier": "all coefficient values of Z2, including the absent one", "why_tests_cant": "field laws quantify over all triples of operands", "anchors": ["phlite/src/fields.rs:Z2", "phlite/src/fields.rs:impl_add_options"]}
{"id": "C02", "title": "Z3, Z5, Z7, Z11, Z13 are the prime fields and never panic", "statement": "For P in {3,5,7,11,13} and coefficients represented by 1..P-1: add, mul, additive_inverse, mult_inverse never hit a checked-arithmetic expect, a NonZero expect or the `Not in Zp` panic, always return a value in 1..P-1 (or None for a zero sum), agree with integer arithmetic mod P, and Option<ZP> is a field.", "quantifier": "all P in {3,5,7,11,13} and all operands constructible through the public API", "why_tests_cant": "must hold for every pair/triple of operands and every P, and covers unsafe new_unchecked calls whose violation a test cannot observe", "anchors": ["phlite/src/fields.rs:ZP", "phlite/src/fields.rs:Invertible for Z3..Z13"]}
{"id": "C03", "title": "ZP<P> with an unsuitable P fails exactly as documented", "statement": "For an arbitrary P the product of two coefficients panics exactly when the u8 product overflows or P divides the product; in particular for every composite P >= 4 and every P >= 17 there are coefficients whose product panics, whereas for the primes up to 13 none do.", "quantifier": "all u8 values of P and all operands in 1..P-1", "why_tests_cant": "ranges over all const-generic parameters", "anchors": ["phlite/src/fields.rs:ZP", "phlite/src/fields.rs:Mul for ZP"]}
{"id": "C04", "title": "Q arithmetic is exact rational arithmetic in lowest terms when nothing overflows", "statement": "For rationals in lowest terms with non-zero numerator, if every intermediate product, sum and common denominator fits below 2^63, then add/mul/additive_inverse/mult_inverse return without panic the exact rational result, again non-zero (None for a zero sum), in lowest terms with positive denominator, so that derived equality is equality of rationals; ideal Q is a field.", "quantifier": "all pairs of Q values with in-range intermediates, debug and release profiles", "why_tests_cant": "infinitely many operand pairs; canonical form is an invariant over all operation histories", "anchors": ["phlite/src/fields.rs:Q"]}
{"id": "C05", "title": "With overflow checks Q panics or is exact, as long as magnitudes stay below 2^63; beyond, it can be silently wrong", "statement": "In a build with overflow checks, a Q operation on lowest-terms values panics or returns the exact rational result whenever numerators, denominators, their common denominator and products stay below 2^63 in absolute value where the code casts between signed and unsigned; outside that range there are values obtainable through the public API for which an operation silently returns a wrong rational.", "quantifier": "all Q values reachable from one() by the public operations", "why_tests_cant": "needs boundary operands near 2^63 that no ordinary test reaches", "anchors": ["phlite/src/fields.rs:Q::reduce", "phlite/src/fields.rs:Q::mult_inverse"]}
{"id": "C06", "title": "pop_pivot returns the leading non-zero term and removes exactly it", "statement": "On a column holding any multiset of entries (repeated rows allowed) whose filtration values are a function of the row, pop_pivot never panics and terminates; it returns None iff every row's coefficients sum to zero (and then the column is empty), else it returns the row that is largest by (filtration value, row) among rows with non-zero total, with that total as coefficient; afterwards the column represents the same linear combination minus that term, and only strictly smaller rows remain stored.", "quantifier": "all entry multisets, all insertion orders, all coefficient fields, all total orders, every tie-breaking of the binary heap", "why_tests_cant": "arbitrary duplication/cancellation patterns and heap layouts", "anchors": ["phlite/src/columns.rs:BHCol::pop_pivot"]}
{"id": "C07", "title": "drain_sorted / to_sorted_vec produce the canonical form of a column", "statement": "Draining yields exactly one entry per row with non-zero total coefficient, with that total, in strictly decreasing (filtration, row) order, and leaves the column empty.", "quantifier": "all entry multisets and heap layouts", "why_tests_cant": "arbitrary duplication/cancellation patterns", "anchors": ["phlite/src/columns.rs:BHCol::drain_sorted", "phlite/src/columns.rs:BHCol::to_sorted_vec"]}
{"id": "C08", "title": "clone_pivot is non-destructive and makes peek_pivot reliable", "statement": "clone_pivot returns what pop_pivot would return and leaves the represented linear combination unchanged; immediately afterwards peek_pivot returns exactly that entry (or None iff the column is zero).", "quantifier": "all entry multisets and heap layouts", "why_tests_cant": "peek is only correct after clone_pivot; must hold for each possible internal heap state", "anchors": ["phlite/src/columns.rs:BHCol::clone_pivot", "phlite/src/columns.rs:BHCol::peek_pivot"]}
{"id": "C09", "title": "A column depends only on the sum of what was added", "statement": "Adding entries one by one, in batches, as tuples or entries, in any order, gives columns representing the sum of all the added terms, and any two columns representing the same linear combination give the same pop_pivot/drain_sorted answers.", "quantifier": "all sequences of add_entry/add_entries/add_tuple/add_tuples calls and permutations thereof", "why_tests_cant": "all histories of insertions", "anchors": ["phlite/src/columns.rs:BHCol::add_entry", "phlite/src/columns.rs:BHCol::add_entries", "phlite/src/columns.rs:BHCol::add_tuple", "phlite/src/columns.rs:BHCol::add_tuples"]}
{"id": "C10", "title": "ColumnEntry ordering is a total order compatible with equality", "statement": "Entries are ordered lexicographically by (filtration value, row); for entries of one filtered matrix Equal comparison coincides with == (equal row), the order is antisymmetric and transitive, and scaling an entry by a coefficient changes only the coefficient.", "quantifier": "all entries of a common row filtration", "why_tests_cant": "BinaryHeap correctness relies on the order laws for all triples", "anchors": ["phlite/src/columns.rs:ColumnEntry::cmp", "phlite/src/columns.rs:ColumnEntry::eq", "phlite/src/columns.rs:ColumnEntry::mul"]}
{"id": "C11", "title": "product is the matrix product", "statement": "product(A,B).column(c) (and column_with_filtration(c)) lists terms whose total coefficient at each row r is sum_k A[r,k]*B[k,c]; it panics only if an underlying column does; filtration comes from A and column basis from B.", "quantifier": "all oracles A,B over any field, all columns", "why_tests_cant": "all matrices", "anchors": ["phlite/src/matrices/combinators.rs:product", "phlite/src/matrices/combinators.rs:Product::column", "phlite/src/matrices/combinators.rs:Product::column_with_filtration", "phlite/src/matrices/combinators.rs:matrix_col_product"]}
{"id": "C12", "title": "sum is the matrix sum", "statement": "sum(A,B).column(c) has total coefficient A[r,c]+B[r,c] at each row r.", "quantifier": "all oracles and columns", "why_tests_cant": "all matrices", "anchors": ["phlite/src/matrices/combinators.rs:sum", "phlite/src/matrices/combinators.rs:Sum::column"]}
{"id": "C13", "title": "consolidate preserves the matrix and removes duplicates", "statement": "consolidate().column(c) represents the same column as the underlying matrix, with each row at most once, non-zero coefficients only, rows strictly decreasing; filtration and basis pass through.", "quantifier": "all oracles and columns", "why_tests_cant": "all duplication patterns", "anchors": ["phlite/src/matrices/adaptors.rs:Consolidator", "phlite/src/matrices/mod.rs:MatrixOracle::consolidate"]}
{"id": "C14", "title": "eq_on_col decides equality of columns", "statement": "a.eq_on_col(&b,c) returns true iff the two matrices have the same coefficient at every row of column c, irrespective of entry order, duplicates or cancellations.", "quantifier": "all pairs of oracles and columns", "why_tests_cant": "all term orders and cancellations", "anchors": ["phlite/src/matrices/mod.rs:MatrixOracle::eq_on_col"]}
{"id": "C15", "title": "reverse and unreverse are inverse, and reverse flips the order", "statement": "reverse().column(Reverse(c)) is the original column with rows wrapped in Reverse, filtration values wrapped likewise, basis element i is the original element size-1-i; the leading row of a reversed column is the smallest (filtration,row) of the original; reverse then unreverse gives back column, filtration and basis exactly, in total and in each dimension.", "quantifier": "all filtered matrices with basis, all columns and indices", "why_tests_cant": "all matrices and indices (off-by-one in documentation: `len - index`)", "anchors": ["phlite/src/matrices/adaptors.rs:ReverseMatrix", "phlite/src/matrices/adaptors.rs:UnreverseMatrix", "phlite/src/matrices/adaptors.rs:ReverseBasis", "phlite/src/matrices/adaptors.rs:UnreverseBasis"]}
{"id": "C16", "title": "Adaptors forward columns, filtrations and bases unchanged", "statement": "with_trivial_filtration, with_filtration, with_basis, sub_matrix_in_dimension, references/Rc/Arc/Box leave column() untouched and attach exactly the given filtration/basis; using_col_basis_index().column(i) is column(basis.element(i)); discard_filtration returns the original.", "quantifier": "all oracles, columns, filtration functions and bases", "why_tests_cant": "all matrices", "anchors": ["phlite/src/matrices/adaptors.rs:WithTrivialFiltration", "phlite/src/matrices/adaptors.rs:WithFuncFiltration", "phlite/src/matrices/adaptors.rs:MatrixWithBasis", "phlite/src/matrices/adaptors.rs:UsingColBasisIndex", "phlite/src/matrices/adaptors.rs:WithSubBasis"]}
{"id": "C17", "title": "column_with_filtration is coherent with column and filtration_value through every adaptor", "statement": "If for a matrix column_with_filtration(c) lists the terms of column(c) each with filtration_value(row), then the same holds for every adaptor/combinator built on it.", "quantifier": "all coherent matrices, adaptors and columns", "why_tests_cant": "all adaptor stacks", "anchors": ["phlite/src/matrices/mod.rs:HasRowFiltration::column_with_filtration", "phlite/src/matrices/adaptors.rs", "phlite/src/matrices/combinators.rs"]}
{"id": "C18", "title": "cache_cols is transparent", "statement": "For any history of column requests on a caching wrapper in which each returned iterator is consumed or dropped before a not-yet-cached column is requested, every request returns exactly the underlying column and never panics, the underlying oracle being consulted once per distinct column.", "quantifier": "all request histories", "why_tests_cant": "all histories of an interior-mutable cache", "anchors": ["phlite/src/matrices/adaptors.rs:WithCachedCols::column", "phlite/src/matrices/adaptors.rs:CachedColIter"]}
{"id": "C19", "title": "cache_cols is not re-entrant: asking for a new column while an iterator is alive panics", "statement": "Requesting a column of a cached matrix that is not yet in the cache while any iterator over another of its columns is alive panics, whatever the history; in particular product(&m,&m) over a cached m panics although the wrapped matrix would answer.", "quantifier": "all interleavings of column/next/drop on a caching wrapper", "why_tests_cant": "needs a particular interleaving of live iterators with an uncached request", "anchors": ["phlite/src/matrices/adaptors.rs:WithCachedCols::column", "phlite/src/matrices/combinators.rs:matrix_col_product"]}
{"id": "C20", "title": "construct_reverse_lookup inverts element", "statement": "For a basis of distinct elements, the lookup maps element(i) to i for each i < size and has no other keys; with duplicates it maps to the last index.", "quantifier": "all finite bases", "why_tests_cant": "all bases", "anchors": ["phlite/src/matrices/mod.rs:ColBasis::construct_reverse_lookup"]}
{"id": "C21", "title": "Concrete matrices return the stored columns", "statement": "VecVecMatrix/MapVecMatrix column returns exactly the stored column and panics exactly when it is absent; new/new_all_one store the given columns (coefficient one); VecVecMatrix has standard basis 0..n.", "quantifier": "all stored matrices and column indices", "why_tests_cant": "all matrices", "anchors": ["phlite/src/matrices/implementors.rs:VecVecMatrix", "phlite/src/matrices/implementors.rs:MapVecMatrix", "phlite/src/matrices/implementors.rs:StandardBasis"]}
{"id": "C22", "title": "standard_algo terminates without panicking", "statement": "For every coherent square matrix whose columns are available for its (distinct) basis elements, standard_algo returns after finitely many reduction steps per column (at most the number of distinct rows + 1) and never hits an unwrap, including the lookup of V columns.", "quantifier": "all finite matrices over any field, any basis order, any filtration, any heap tie-breaking", "why_tests_cant": "termination and absence of panics over all inputs", "anchors": ["phlite/src/reduction/standard.rs:standard_algo"]}
{"id": "C23", "title": "V is upper unitriangular", "statement": "Each column j of the returned V has coefficient 1 at j and other non-zero entries only at basis elements strictly before j; stored entries are non-zero, without repetition and strictly decreasing in the order of the basis elements.", "quantifier": "all finite matrices", "why_tests_cant": "all inputs", "anchors": ["phlite/src/reduction/standard.rs:standard_algo"]}
{"id": "C24", "title": "R = D V is reduced", "statement": "No two non-zero columns of product(D,V) have the same pivot row.", "quantifier": "all finite matrices", "why_tests_cant": "all inputs", "anchors": ["phlite/src/reduction/standard.rs:standard_algo"]}
{"id": "C25", "title": "Persistence pairs are intrinsic", "statement": "(i,j) is reported as a pairing iff i is the least row (by filtration, row) that can be the leading row of D x over all chains x with last basis element j - a statement not mentioning the algorithm. Hence every triangular V with D V reduced yields the same pairs.", "quantifier": "all finite matrices, all alternative decompositions", "why_tests_cant": "uniqueness over all possible decompositions", "anchors": ["phlite/src/reduction/standard.rs:standard_algo", "phlite/src/reduction/standard.rs:read_off_diagram"]}
{"id": "C26", "title": "read_off_diagram lists each pivot pair and each unpaired zero column", "statement": "The diagram's pairings are exactly (pivot row of R_j, j) for columns with R_j non-zero; its essential set is exactly the basis elements with R_j = 0 that are not the pivot of another column, provided each pairing's birth precedes its death in the traversal direction chosen by reverse_order.", "quantifier": "all finite matrices, both values of reverse_order", "why_tests_cant": "all inputs; order-dependent insert/remove on hash sets", "anchors": ["phlite/src/reduction/standard.rs:read_off_diagram", "phlite/src/reduction/standard.rs:standard_algo_with_diagram"]}
{"id": "C27", "title": "With D D = 0 the diagram partitions the basis", "statement": "If D D = 0 and the basis is in row order, each basis element is exactly one of: essential, birth of exactly one pairing, death of exactly one pairing.", "quantifier": "all finite chain complexes with basis sorted by filtration", "why_tests_cant": "all inputs", "anchors": ["phlite/src/reduction/standard.rs:standard_algo_with_diagram", "phlite/src/reduction/mod.rs:Diagram"]}
{"id": "C28", "title": "A wrong reverse_order corrupts the essential set only", "statement": "Pairings do not depend on reverse_order; with the wrong direction paired births are left in `essential`.", "quantifier": "all finite matrices", "why_tests_cant": "all inputs; order-dependence", "anchors": ["phlite/src/reduction/standard.rs:read_off_diagram"]}
{"id": "C29", "title": "Reduction results depend only on the matrix", "statement": "Two presentations of the same matrix (different term order, duplicated or cancelling terms, different heap tie-breaking, overridden or default column_with_filtration) give literally the same V and diagram.", "quantifier": "all pairs of presentations of a matrix", "why_tests_cant": "all presentations", "anchors": ["phlite/src/reduction/standard.rs:standard_algo", "phlite/src/reduction/clearing.rs:ClearedReductionMatrix"]}
{"id": "C30", "title": "The clearing algorithm terminates without panicking", "statement": "For a coherent graded complex (D D = 0, D maps each dimension of dimension_order to the next one, each sub-basis in row order), build_with_diagram returns and never hits an unwrap, and every column of V for a basis element in the given dimensions can be requested without panic or unbounded recursion.", "quantifier": "all finite graded complexes, any heap", "why_tests_cant": "termination and absence of panics for all inputs", "anchors": ["phlite/src/reduction/clearing.rs:build_with_diagram", "phlite/src/reduction/clearing.rs:reduce_column", "phlite/src/reduction/clearing.rs:ClearedReductionMatrix::column"]}
{"id": "C31", "title": "Clearing yields a valid R = D V decomposition", "statement": "The returned V is triangular with non-zero diagonal in each dimension, D V is reduced, and cleared columns are cycles equal to the reduced column of their death.", "quantifier": "all finite graded complexes", "why_tests_cant": "all inputs", "anchors": ["phlite/src/reduction/clearing.rs:build_with_diagram", "phlite/src/reduction/clearing.rs:ClearedReductionMatrix::column"]}
{"id": "C32", "title": "Clearing and the standard algorithm give the same diagram", "statement": "On a graded complex, pairings and essential set returned by build_with_diagram equal those of standard_algo_with_diagram.", "quantifier": "all finite graded complexes", "why_tests_cant": "equivalence of two algorithms for all inputs", "anchors": ["phlite/src/reduction/clearing.rs:build_with_diagram", "phlite/src/reduction/standard.rs:standard_algo_with_diagram"]}
{"id": "C33", "title": "col_is_cycle is correct", "statement": "col_is_cycle(c) is true iff column c of D V is zero.", "quantifier": "all finite graded complexes, all basis elements", "why_tests_cant": "all inputs", "anchors": ["phlite/src/reduction/clearing.rs:col_is_cycle"]}
{"id": "C34", "title": "Homology and cohomology give the same pairs", "statement": "Reducing D and reducing its anti-transpose give the same pairs with birth and death exchanged.", "quantifier": "all finite matrices", "why_tests_cant": "all inputs; a duality theorem", "anchors": ["phlite/src/matrices/mod.rs:MatrixOracle::reverse", "phlite/src/reduction/standard.rs:standard_algo"]}
{"id": "C35", "title": "RipsIndex encodes simplices faithfully", "statement": "For vertex lists over n points, to_vec(from_indices(s)) = s, so distinct simplices have distinct indices, and dimension() is the number of vertices minus 1; from_indices is None exactly for the empty list.", "quantifier": "all n, all vertex lists whose code fits usize", "why_tests_cant": "all simplices and point counts", "anchors": ["phlite_rips/src/lib.rs:RipsIndex"]}
{"id": "C36", "title": "RipsIndex overflow", "statement": "If (n+1)^(k) exceeds the machine word, from_indices panics under overflow checks; without them distinct simplices can collide.", "quantifier": "all n, k", "why_tests_cant": "needs inputs beyond 2^64", "anchors": ["phlite_rips/src/lib.rs:RipsIndex::from_indices"]}
{"id": "C37", "title": "build_rips_bases enumerates every simplex once, in filtration order", "statement": "For max_dim >= 1 dimension d <= max_dim of the basis is a duplicate-free list of the codes of all d-simplices on n vertices sorted by (filtration value, index), the filtration value being the largest pairwise distance for a symmetric distance matrix with zero diagonal and non-negative entries.", "quantifier": "all distance matrices and max_dim", "why_tests_cant": "all point clouds", "anchors": ["phlite_rips/src/lib.rs:build_rips_bases", "phlite_rips/src/lib.rs:add_cofacets"]}
{"id": "C38", "title": "Which build_rips_bases calls return", "statement": "For a square distance table whose simplex indices fit the machine word, build_rips_bases(d, max_dim) returns if and only if max_dim >= 1 or there is at most one point; with max_dim = 0 and two or more points it panics (index out of bounds).", "quantifier": "all distance matrices and max_dim", "why_tests_cant": "all parameter values, including max_dim = 0", "anchors": ["phlite_rips/src/lib.rs:build_rips_bases", "phlite_rips/src/lib.rs:add_cofacets"]}
{"id": "C39", "title": "Multi-dimensional bases are the concatenation of their dimensions", "statement": "element(i) is the i-th element of the concatenation of the sub-bases, size the total, and an out-of-range index panics; likewise for path homology bases.", "quantifier": "all split bases and indices", "why_tests_cant": "all sizes incl. empty dimensions", "anchors": ["phlite_rips/src/lib.rs:MultiDimRipsBasisWithFilt", "phlite_grpph/src/coboundary.rs:PathHomMultiBasis"]}
{"id": "C40", "title": "The Rips boundary is the simplicial boundary", "statement": "column of a simplex lists its codimension-1 faces, the one omitting vertex number i with sign (-1)^i; vertices have empty boundary; boundary of boundary is zero over every field.", "quantifier": "all simplices, n, fields", "why_tests_cant": "all simplices", "anchors": ["phlite_rips/src/homology.rs:RipsBoundary::column"]}
{"id": "C41", "title": "The Rips coboundary is the transpose of the boundary", "statement": "coefficient of t in coboundary(s) equals coefficient of s in boundary(t); the cofacets are listed once each; coboundary of coboundary is zero.", "quantifier": "all simplices, n, fields", "why_tests_cant": "all simplices; stateful iterator", "anchors": ["phlite_rips/src/cohomology.rs:CoboundaryIterator", "phlite_rips/src/cohomology.rs:RipsCoboundary::column"]}
{"id": "C42", "title": "The Rips filtration is monotone", "statement": "filtration_value of a face is <= that of the simplex; so boundary columns only contain rows no later than the simplex.", "quantifier": "all distance matrices and simplices", "why_tests_cant": "all inputs", "anchors": ["phlite_rips/src/lib.rs:max_pairwise_distance", "phlite_rips/src/homology.rs:filtration_value"]}
{"id": "C43", "title": "Rips column_with_filtration: coherent on built matrices, wrong in the override", "statement": "The matrices returned by build_rips_coboundary_matrix and build_rips_boundary_matrix (and references to them) list in column_with_filtration exactly the terms of column with their filtration_value. RipsCoboundary's own override, reachable through the public field `matrix`, does not: it panics exactly when the last point is not a vertex of the simplex (for a non-empty simplex), and otherwise values the coface obtained by adding point v with the distances of point v+1.", "quantifier": "all distance matrices and simplices", "why_tests_cant": "the override is only reachable through `.matrix`, no test calls it", "anchors": ["phlite_rips/src/cohomology.rs:RipsCoboundary::column_with_filtration", "phlite_rips/src/cohomology.rs:CoboundaryIterator::next"]}
{"id": "C44", "title": "End-to-end Rips persistent cohomology", "statement": "For every symmetric, zero-diagonal, non-negative distance table, max_dim >= 1 and field: building the coboundary, reversing it and running the clearing algorithm on 0..=max_dim returns; its diagram is the intrinsic persistence pairing, identical to that of the standard algorithm on the same matrix; every pair joins a simplex to a coface one dimension up with no smaller diameter, every simplex but the vertex 0 is in exactly one pair in one role and the vertex 0 is the only essential class; the homology run on the boundary matrix has the same pairs exchanged, up to top-dimensional classes.", "quantifier": "all symmetric distance matrices, max_dim >= 1, fields", "why_tests_cant": "all point clouds", "anchors": ["phlite_rips/src/main.rs:main", "phlite_rips/src/cohomology.rs:build_rips_coboundary_matrix", "phlite/src/reduction/clearing.rs:build_with_diagram"]}
{"id": "C45", "title": "Primary bridges are earliest two-paths", "statement": "The bridge map has an entry for (s,t) iff some two-path s->b->t appears strictly before the edge (s,t) (or the edge never appears), and the entry is the bridge minimal by (time, vertex).", "quantifier": "all filtered digraphs", "why_tests_cant": "all digraphs", "anchors": ["phlite_grpph/src/coboundary.rs:build_primary_bridge_map"]}
{"id": "C46", "title": "Path-homology coboundary is the transpose of the boundary", "statement": "For cells of the filtration, the coefficient of 2-cell c in column(Edge e) equals the coefficient of e in the boundary of c, the cells listed are exactly the generating double edges, directed triangles and long squares containing e; likewise nodes/edges; no lookup panics.", "quantifier": "all filtered digraphs without self-loops in the filtration", "why_tests_cant": "all digraphs", "anchors": ["phlite_grpph/src/coboundary.rs:produce_edge_total_coboundary", "phlite_grpph/src/coboundary.rs:produce_node_total_coboundary", "phlite_grpph/src/boundary.rs:GrPPHBoundary::column"]}
{"id": "C47", "title": "GrPPH times are coherent", "statement": "The time listed with each coboundary entry equals filtration_value of that cell (when no finite-time edge has time +infinity).", "quantifier": "all filtered digraphs", "why_tests_cant": "all digraphs", "anchors": ["phlite_grpph/src/coboundary.rs:column_with_filtration", "phlite_grpph/src/coboundary.rs:filtration_value"]}
{"id": "C48", "title": "GrPPH complexes are chain complexes with monotone filtration", "statement": "Boundary of boundary is zero, coboundary of coboundary is zero, and a cell never appears before its boundary cells.", "quantifier": "all filtered digraphs", "why_tests_cant": "all digraphs", "anchors": ["phlite_grpph/src/boundary.rs:GrPPHBoundary", "phlite_grpph/src/coboundary.rs:GrPPHCoboundary"]}
{"id": "C49", "title": "GrPPH basis lists every node and every edge once, sorted", "statement": "degree 0 is all nodes at time 0; degree 1 is every edge of the digraph at time 0 and every other edge with finite time at that time, sorted and duplicate-free. A map filtration answers with the time last inserted for that ordered pair, a vector filtration with the entry in row source, column target.", "quantifier": "all filtered digraphs and edge sets", "why_tests_cant": "all digraphs", "anchors": ["phlite_grpph/src/coboundary.rs:build_basis,VecDigraphFiltration,MapDigraphFiltration"]}
{"id": "C50", "title": "End-to-end GrPPH", "statement": "Building, reversing and reducing with 0..=1 never panics and returns the intrinsic pairs; bars reported by grpph are exactly those with distinct birth and death times, in the dimension of the birth cell.", "quantifier": "all filtered digraphs", "why_tests_cant": "all digraphs", "anchors": ["phlite_grpph/src/lib.rs:grpph", "phlite_grpph/src/coboundary.rs:GrPPHCoboundary::build"]}
{"id": "C51", "title": "Involuted representatives are cycles", "statement": "grpph_with_involution reports, for each finite 1-dimensional bar with distinct birth and death, one representative, and every representative is a cycle (a boundary).", "quantifier": "all filtered digraphs", "why_tests_cant": "all digraphs", "anchors": ["phlite_grpph/src/lib.rs:grpph_with_involution"]}
{"id": "C52", "title": "The diagram of the standard algorithm is the persistence barcode", "statement": "For a filtered chain complex over a field, the (essential, pairings) diagram returned by standard_algo_with_diagram is the persistence barcode: each essential index's returned V column is a cycle present from its birth, each pair's reduced column is a cycle present from the birth that bounds from the death on, and for all times s, t and every degree n the bars born by s and alive at t are a basis of the image of H_n(K_s) in H_n(K_t); their number is the persistent Betti number whatever basis is used to count it.", "quantifier": "all filtered chain complexes over any field, all filtration orders, all degrees and all pairs of times, all heap implementations", "why_tests_cant": "the claim ranges over all complexes, over every cycle and chain of each, and over all pairs of times; tests compare a few barcodes", "anchors": ["phlite/src/reduction/standard.rs:standard_algo", "phlite/src/reduction/standard.rs:read_off_diagram", "phlite/src/reduction/standard.rs:standard_algo_with_diagram"]}
{"id": "C53", "title": "The diagram of the clearing algorithm is the persistence barcode", "statement": "For a filtered complex split by dimension whose last block has zero columns, the diagram returned by the clearing reduction is the persistence barcode, with the columns of the returned V (essential) and D*V (pairs) as representative cycles, and the number of bars alive is the persistent Betti number, for all times and degrees.", "quantifier": "all filtered complexes split into blocks by dimension, all times and degrees", "why_tests_cant": "ranges over all complexes and all chains; clearing skips columns, so only a proof shows nothing was lost", "anchors": ["phlite/src/reduction/clearing.rs:ClearedReductionMatrix::build_with_diagram", "phlite/src/reduction/clearing.rs:reduce_all_dimension", "phlite/src/reduction/clearing.rs:ClearedReductionMatrix::column"]}
{"id": "C54", "title": "The Rips cohomology run computes the persistent homology of the Vietoris-Rips filtration", "statement": "For a distance table, the diagram returned by building the Rips coboundary with max_dim, reversing it and running the clearing reduction is, with births and deaths exchanged back, the persistence barcode of the Vietoris-Rips filtration in homology in every dimension q <= max_dim: there are representative cycles, present from birth and bounding from death, such that for all times s, t the bars of dimension q born by s and alive at t are a basis of the image of H_q(R_s) in H_q(R_t), and their number is the persistent Betti number; here R is the full Rips complex or any skeleton with simplices of dimension max_dim + 1.", "quantifier": "all symmetric, non-negative, zero-diagonal distance tables, all max_dim >= 1 whose codes fit the word, all coefficient fields, all pairs of times and dimensions <= max_dim", "why_tests_cant": "ranges over all point clouds, all chains and all times; it relates a cohomology computation on a truncated basis to homology of the whole complex, which no finite comparison settles", "anchors": ["phlite_rips/src/cohomology.rs:build_rips_coboundary_matrix", "phlite_rips/src/main.rs:main", "phlite/src/reduction/clearing.rs:ClearedReductionMatrix::build_with_diagram"]}
{"id": "C55", "title": "The generating 2-cells are a basis of the boundary-invariant 2-paths", "statement": "For every filtered digraph (no loops, times below infinity) and every time t, the double edges, directed triangles and long squares that the coboundary matrix lists in the columns of edges and whose filtration value is at most t form a basis of Omega_2 of the digraph at time t: each is a combination of two-edge paths of present edges whose boundary consists of present edges, every such combination is a unique combination of them, over every field.", "quantifier": "all fields, all filtered digraphs, all times, all boundary-invariant chains of 2-paths", "why_tests_cant": "spanning and independence quantify over all chains of paths and all digraphs; a missing or superfluous generator changes homology only for particular digraphs", "anchors": ["phlite_grpph/src/coboundary.rs:GrPPHCoboundary::column", "phlite_grpph/src/coboundary.rs:GrPPHCoboundary", "phlite_grpph/src/coboundary.rs:build_primary_bridge_map"]}
{"id": "C56", "title": "grpph returns the barcode of grounded persistent path homology", "statement": "The bars returned by grpph in dimensions 0 and 1 are those of grounded persistent path homology over Z2 as defined from chains of edges and boundary-invariant 2-paths: for all times s <= t, the number of returned bars of dimension k born by s and alive at t is the dimension of the image of H_k at time s in H_k at time t; every returned finite bar is born strictly before it dies. The pairs and essential cells of the underlying reduction satisfy this over every field.", "quantifier": "all weighted digraphs with fewer than 65536 vertices and finite shortest-path times, all pairs of times", "why_tests_cant": "relates the output to a definition quantifying over all chains, for every digraph and every pair of times", "anchors": ["phlite_grpph/src/lib.rs:grpph", "phlite_grpph/src/coboundary.rs:GrPPHCoboundary", "phlite/src/reduction/clearing.rs:ClearedReductionMatrix"]}
{"id": "C57", "title": "On a weighted digraph grpph returns the barcode of its shortest-path filtration", "statement": "For a digraph on n < 65536 vertices given as a list of weighted edges with non-negative weights (repeated edges, loops and infinite weights allowed), if the shortest-path library returns lengths of shortest walks and these do not overflow to infinity, then grpph terminates without panicking and the bars it returns count, for all s <= t, the dimension of the image of grounded path homology at s in that at t, where an edge x -> y of the filtration appears at the length of a shortest walk from x to y along edges of finite weight and every given edge, including those of infinite weight, is in the ground complex.", "quantifier": "all digraphs with fewer than 65536 vertices, all non-negative weights, all pairs of times; rounding addition allowed", "why_tests_cant": "the claim composes a graph algorithm, the column oracle and the reduction for all digraphs", "anchors": ["phlite_grpph/src/lib.rs:grpph", "phlite_grpph/src/lib.rs:build_filtration", "phlite_grpph/src/lib.rs:build_edge_set"]}
{"id": "C58", "title": "Every bar of grpph starts at zero, ends at a distance, and components are counted", "statement": "On a weighted digraph (as in C57) grpph returns no finite bar of dimension 0; every essential class and every finite bar is born at 0; every death is positive and is the length of a shortest walk between two distinct vertices; and the number of essential classes of dimension 0 is the number of weakly connected components, edges of infinite weight counted as edges.", "quantifier": "all weighted digraphs with non-negative weights, all outputs", "why_tests_cant": "a statement about all bars of all digraphs", "anchors": ["phlite_grpph/src/lib.rs:grpph"]}
{"id": "C59", "title": "The number of bars of dimension 1 is the circuit rank", "statement": "On a digraph with positive weights (as in C57) the essential classes and finite bars of dimension 1 returned by grpph are together as many as distinct edges minus vertices plus weakly connected components. When weights may be zero, the circuit rank is an upper bound (cycles of length zero die at once).", "quantifier": "all digraphs with positive weights", "why_tests_cant": "counting identity over all digraphs", "anchors": ["phlite_grpph/src/lib.rs:grpph"]}
{"id": "C60", "title": "Which cycles never die in a digraph with a root", "statement": "If some vertex reaches every vertex by a walk along edges of finite weight, grpph returns exactly one essential class of dimension 0 and, in dimension 1, one essential class at time 0 for each distinct given edge that is a loop or whose end cannot be reached from its start along edges of finite weight; in particular none if the digraph is strongly connected, has finite weights and no loops.", "quantifier": "all weighted digraphs with a root", "why_tests_cant": "a statement about all rooted digraphs", "anchors": ["phlite_grpph/src/lib.rs:grpph", "phlite_grpph/src/lib.rs:build_filtration"]}
{"id": "C61", "title": "The representatives of grpph_with_involution are a persistent basis", "statement": "grpph_with_involution returns the bars of grpph and one representative for each finite bar of dimension 1, in some order: a list of distinct edges whose sum is a cycle at the birth of the bar, a boundary at its death and not at any time before. Together with suitable cycles for the essential classes the representatives of the bars alive from s to t form a basis of the image of H_1 at s in H_1 at t, for all s <= t simultaneously.", "quantifier": "all filtered digraphs, all bars, all pairs of times", "why_tests_cant": "being a basis of the persistent homology quantifies over all cycles and all times", "anchors": ["phlite_grpph/src/lib.rs:grpph_with_involution"]}
{"id": "C62", "title": "With positive weights representatives run along given edges", "statement": "On a digraph with positive weights (as in C57) grpph_with_involution returns exactly as many representatives as finite bars of dimension 1; each is a non-empty list of distinct edges of the given digraph forming a cycle mod 2.", "quantifier": "all digraphs with positive weights", "why_tests_cant": "a statement about all representatives of all digraphs", "anchors": ["phlite_grpph/src/lib.rs:grpph_with_involution"]}
{"id": "C63", "title": "The assertions of the Python examples hold for every size", "statement": "For every N >= 1 grpph on the complete digraph with unit weights returns one essential class of dimension 0, none of dimension 1 and N(N-1)-N+1 finite bars, all of dimension 1, all born at 0 and dead at the weight of the edges; for every N >= 2 grpph and grpph_with_involution on the directed N-cycle return one essential class of dimension 0, one finite bar of dimension 1, and one representative consisting of all N edges.", "quantifier": "all N below 65536", "why_tests_cant": "the example scripts assert this for single values of N", "anchors": ["phlite_grpph/src/lib.rs:grpph", "phlite_grpph/src/lib.rs:grpph_with_involution", "phlite_grpph/examples/example.py:do_complete", "phlite_grpph/examples/example.py:do_cycle"]}
{"id": "C64", "title": "What the Rips program prints is the barcode of the Vietoris-Rips complex", "statement": "On a table of distances and a maximal dimension m >= 1 the command-line program (after parsing) terminates without panicking. It prints the number of simplices n over k+1 for k = 0..m; exactly one essential class, the vertex 0 with dimension 0 and birth 0; and, of a list of finite bars, exactly those with death - birth above the threshold, each with the dimension and the indices of a simplex of dimension at most m and of a simplex one dimension up, and their diameters. In every dimension up to m the bars alive from s to t, essential and finite, are as many as the persistent Betti number over Z/2 of the Vietoris-Rips filtration; the printed ones alone suffice whenever every bar containing [s, t] is above the threshold. With m = 0 and at least two points it panics.", "quantifier": "all distance tables, all m >= 1 whose simplex codes fit the word, all thresholds and subtractions, all pairs of times", "why_tests_cant": "a statement about the full output on every table", "anchors": ["phlite_rips/src/main.rs:main", "phlite_rips/src/cohomology.rs:build_rips_coboundary_matrix", "phlite_rips/src/lib.rs:RipsIndex"]}
{"id": "C65", "title": "The assertions of the GrPPH demonstration program hold for every size", "statement": "The demonstration binary, with any number n of vertices from 2 to 65535 in place of 100, terminates without a failed assertion: it prints one essential class born at 0 and n(n-1)-n+1 pairs, all born at 0 and dead at 1.", "quantifier": "all n from 2 to 65535", "why_tests_cant": "the program asserts this for n = 100 only", "anchors": ["phlite_grpph/src/bin/main.rs:main"]}
{"id": "C66", "title": "The diagram of the directed cycle is known exactly", "statement": "For every N >= 2 grpph and grpph_with_involution on the directed N-cycle with equal positive weights return one essential class of dimension 0 and exactly one finite bar, of dimension 1, born at 0 and dying at the length of a path of ceil(N/2) edges; its representative consists of all N edges.", "quantifier": "all N from 2 to 65535 and all positive edge weights for which the longest distance does not reach infinity", "why_tests_cant": "any test fixes N and the weight", "anchors": ["phlite_grpph/src/lib.rs:grpph", "phlite_grpph/src/lib.rs:grpph_with_involution", "phlite_grpph/examples/example.py:do_cycle"]}
{"id": "C67", "title": "grpph depends on the weighted digraph only", "statement": "Renaming the vertices, reordering the edge list, repeating edges, another heap tie-breaking or another correct shortest-path implementation changes what grpph returns only by the order of the entries: essential births and (birth, death) pairs of each dimension are the same multisets.", "quantifier": "all weighted digraphs, all renamings of their vertices, all orders of the edges", "why_tests_cant": "there are n! renamings and orders for every input", "anchors": ["phlite_grpph/src/lib.rs:grpph", "phlite_grpph/src/lib.rs:build_edge_set", "phlite_grpph/src/coboundary.rs:GrPPHCoboundary::build"]}
{"id": "C68", "title": "Rips bars do not depend on the order of the points", "statement": "Feeding the same points in another order, with another heap tie-breaking, changes neither the sizes nor the essential classes printed by the Rips program, and changes the list of bars (dimension, birth, death) only in its order; at library level, over any field, the essential births and the bars of positive length of every dimension up to max_dim are the same multisets.", "quantifier": "all distance matrices, all permutations of the points, all fields, all thresholds that discard bars of zero length", "why_tests_cant": "there are n! orders of every point set, each giving other simplex indices and other tie-breaking", "anchors": ["phlite_rips/src/cohomology.rs:build_rips_coboundary_matrix", "phlite_rips/src/main.rs:main", "phlite/src/reduction/clearing.rs:ClearedReductionMatrix::build_with_diagram"]}
{"id": "C69", "title": "Bars are stable under perturbation of the input", "statement": "If distances up to s in one table are at most s' in another, and distances up to t' in the other are at most t in the first, then at least as many bars of the other contain [s', t'] as bars of the first contain [s, t], in every dimension up to max_dim. Likewise for grpph in dimension 1, where the second digraph may also have further edges; in particular making edges longer never decreases the number of bars alive at any time.", "quantifier": "all pairs of distance tables of one size and all pairs of weighted digraphs on the same vertices, all times", "why_tests_cant": "relates the outputs on two arbitrary inputs at all pairs of times", "anchors": ["phlite_rips/src/cohomology.rs:build_rips_coboundary_matrix", "phlite_grpph/src/lib.rs:grpph", "phlite_grpph/src/coboundary.rs:GrPPHCoboundary::build"]}
{"id": "C70", "title": "Reducing the Rips boundary matrix computes the persistent homology of the skeleton", "statement": "For every distance matrix, every max_dim >= 1 and every coefficient field, building the Rips boundary matrix and reducing it with the standard algorithm, or with the clearing algorithm over the dimensions max_dim, ..., 1, 0, succeeds; both give the same pairings and the same essential cells; and for every degree q and times s, t the number of reported bars alive from s to t is the persistent Betti number of the complex of all simplices of dimension at most max_dim, which for q < max_dim is also that of the whole Vietoris-Rips complex.", "quantifier": "all distance matrices, all max_dim >= 1, all fields, all heap implementations, all degrees and all pairs of times", "why_tests_cant": "The repo's test checks the two list lengths for one square of four points; that the bars are the persistent homology of the skeleton is a statement about every point set and every pair of times.", "anchors": ["phlite_rips/src/homology.rs:build_rips_boundary_matrix, RipsBoundary", "phlite/src/reduction/standard.rs:standard_algo_with_diagram", "phlite/src/reduction/clearing.rs:build_with_diagram"]}
{"id": "C71", "title": "The number of bars in each dimension depends only on the number of points", "statement": "For every distance matrix on n >= 1 points and every max_dim >= 1, the Rips cohomology run reports exactly one essential cell and exactly C(n-1, k+1) pairings whose birth simplex has dimension k, for each k <= max_dim; the reduction of the Rips boundary matrix reports exactly 1 + C(n-1, max_dim+1) essential cells and C(n-1, k+1) pairings in each dimension k < max_dim. The distances, the field and the heap do not matter.", "quantifier": "all distance matrices on at least one point, all max_dim >= 1, all fields, all heap implementations", "why_tests_cant": "The tests assert 7/1, 6/1 and 6/2 for a single four-point square; the formula covers every number of points and dimension.", "anchors": ["phlite_rips/src/cohomology.rs:build_rips_coboundary_matrix, tests", "phlite_rips/src/homology.rs:build_rips_boundary_matrix, tests", "phlite_rips/src/main.rs:main", "phlite/src/reduction/mod.rs:Diagram"]}
{"id": "C72", "title": "Dimension-0 Rips bars count connected components", "statement": "For every distance matrix on n >= 1 points and every time t not below the diagonal, the number of connected components of the graph joining points at distance at most t is one plus the number of dimension-0 pairings of the Rips cohomology run that die after t.", "quantifier": "all distance matrices on at least one point, all max_dim >= 1, all fields, all heap implementations, all times", "why_tests_cant": "relates the output to a graph-theoretic count at every time for every point set", "anchors": ["phlite_rips/src/cohomology.rs:build_rips_coboundary_matrix", "phlite_rips/src/main.rs:main", "phlite/src/reduction/clearing.rs:build_with_diagram"]}
{"id": "C73", "title": "The Rips program prints the barcode, and on the circle example exactly the expected one", "statement": "Whatever list of bars (degree, birth, death) has, in every degree up to the requested one, as many bars born by s and alive after t as the persistent Betti number of the Vietoris-Rips filtration says (plus the one class of degree 0 that never dies), the bars of length > 0.01 that the program prints are exactly the bars of length > 0.01 of that list, in some order. In particular, fed the matrix printed by circle_distance_matrix.py for n points and run without arguments, the program prints n and n(n-1)/2 as basis sizes, one essential class of dimension 0 born at 0, n-1 bars (0,1) in dimension 0 and, exactly when n > 3, a single bar (1, ceil(n/3)) in dimension 1.", "quantifier": "every distance matrix, every requested dimension >= 1, every list of bars that is a barcode of the filtration, every heap implementation; for the circle every number of points n >= 1 and every strictly increasing reading of the printed integers", "why_tests_cant": "tests run a few sizes; the claim identifies the printed bars with the topological barcode for all inputs and gives the circle's bars in closed form for every n", "anchors": ["phlite_rips/src/main.rs:main", "phlite_rips/circle_distance_matrix.py:circle_matrix"]}
{"id": "C74", "title": "Which tables of distances the Rips program is right about", "statement": "The filtration times stored in the Rips bases are the times the matrix reports for the same simplices exactly when the table has zeros on the diagonal and no entry below the diagonal exceeds both zero and its mirror image. For two such tables that agree above the diagonal (or are both at or below zero there) the command-line program prints the same sizes, the same essential classes and the same lines up to order. For a table that is not like that (distances stored below the diagonal, zeros above) the statement is false: the program prints bars that are not those of the complex it describes, without an error.", "quantifier": "all tables with enough columns, all totally ordered entries, all max_dim >= 1; the refutation is one five-point table", "why_tests_cant": "tests use symmetric tables; the dependence on half of the table holds for every size and every value", "anchors": ["phlite_rips/src/lib.rs:build_rips_bases", "phlite_rips/src/lib.rs:max_pairwise_distance", "phlite_rips/src/main.rs:main"]}
{"id": "C75", "title": "The pairs depend only on the order of the distances", "statement": "If two tables, possibly with entries of different types, order their entries on and above the diagonal in the same way (as after applying any strictly increasing rescaling), then the Rips cohomology run returns the same pairs of simplices, up to order, and the same essential classes, over every coefficient field and with every heap implementation.", "quantifier": "all pairs of admissible tables with the same order type, all coefficient fields, all max_dim >= 1", "why_tests_cant": "ranges over all tables and all rescalings", "anchors": ["phlite_rips/src/cohomology.rs:build_rips_coboundary_matrix"]}
{"id": "C76", "title": "On which input the Rips command returns", "statement": "The command reads every record as a row of numbers and its first argument as the maximal dimension (1 without an argument), and then works on exactly that table and dimension; if a record cannot be read, a field is not a number or is NaN, the records differ in length, or the argument is not a number, it panics. It returns, with the right basis sizes, for every table that has at least as many columns as rows, whatever the numbers are (asymmetric, negative, nonzero diagonal), every dimension at least 1, and codes that fit the machine word. It panics if an entry above the diagonal is missing. With two records or more it returns exactly for such tables and dimensions and panics on every other input.", "quantifier": "all lists of records, all parsers of numbers, all arguments, all totally ordered number types, all heap implementations", "why_tests_cant": "ranges over all inputs, including malformed ones, and over all tables of all sizes", "anchors": ["phlite_rips/src/main.rs:main", "phlite_rips/src/lib.rs:build_rips_bases", "phlite_rips/src/lib.rs:add_cofacets"]}
{"id": "C77", "title": "The clearing reduction returns for any order of the basis", "statement": "If the basis lists every cell once, column entries carry their filtration values, and rows of a block lie in no block reduced up to then and occur in no earlier block, the clearing reduction returns, even if the basis is not sorted by filtration value. Every cell is then listed exactly once as essential, as the birth or as the death of a pair; the combinations recorded for essential cells reduce to the zero column, and the partner recorded for a cell is the leading row of its reduced column.", "quantifier": "all graded matrices and split bases with these conditions, all coefficient fields, all filtration types, all heap implementations", "why_tests_cant": "quantifies over all matrices and all orders of the basis", "anchors": ["phlite/src/reduction/clearing.rs:ClearedReductionMatrix::build_with_diagram", "phlite/src/reduction/clearing.rs:save_column"]}
{"id": "C78", "title": "The clearing reduction with the dimensions in any order", "statement": "Whatever list of dimensions the clearing reduction is given (in the wrong direction, with gaps, with repetitions), on a graded complex it returns. Visiting a dimension again changes nothing; the reported pairs are exactly the persistence pairs of the visited part, so they do not depend on the order; the V it returns is triangular and reduces D. The essential list is not correct in general: it consists of the positive cells that are not the birth of a pair whose death lies in a dimension visited earlier, so in the wrong direction every positive cell, including the birth of every reported pair, is listed as essential.", "quantifier": "all graded complexes with a split basis in filtration order, all lists of dimensions, all coefficient fields, filtration types and heap implementations", "why_tests_cant": "quantifies over all complexes and all orders, gaps and repetitions of the dimensions", "anchors": ["phlite/src/reduction/clearing.rs:build_with_diagram", "phlite/src/reduction/clearing.rs:reduce_dimension", "phlite/src/reduction/clearing.rs:save_column"]}
{"id": "C79", "title": "The clearing algorithm depends on the matrix only", "statement": "Let two boundary oracles present the same matrix: the same row filtration and, in every column of the visited dimensions, the same coefficients after summing repeated rows. Whatever the order and repetition of the terms in their columns, whatever the heap does with ties, whether column_with_filtration is overridden or not, whatever basis objects enumerate the same blocks, and whichever lists of dimensions are passed as long as their first visits enumerate the same blocks, ClearedReductionMatrix::build_with_diagram returns the same table of reduction columns (the same clearing entries and the same coefficient lists in the same order) and the same diagram. The columns of V read back from that table are the same vectors.", "quantifier": "all fields, matrices with D D = 0 graded by dimension, presentations of one matrix, heap implementations, basis objects, lists of dimensions", "why_tests_cant": "a test compares a few presentations; the claim is about every order, repetition and cancellation of terms and every tie-breaking of the heap", "anchors": ["phlite/src/reduction/clearing.rs:build_with_diagram", "phlite/src/reduction/clearing.rs:reduce_column", "phlite/src/reduction/clearing.rs:save_column", "phlite/src/columns.rs:BHCol"]}
{"id": "C80", "title": "grpph returns exactly when all edges join known vertices", "statement": "With fewer than 65536 vertices and finite non-negative path times, grpph and grpph_with_involution return if every end of every edge, cast to u16, is one of the vertices 0..n-1, and panic in every other case, whatever the remaining edges, their order and their weights: an edge with an unknown vertex is never ignored and no barcode is returned for it, and the call never loops forever.", "quantifier": "all numbers of vertices below 65536, edge lists, weights, path times, heap implementations; all amounts of fuel above a bound depending on the input only", "why_tests_cant": "a test shows the panic for some edge lists; the claim covers every position of the offending edge in the filtration order, so every possible prefix of the reduction before the panic", "anchors": ["phlite_grpph/src/lib.rs:grpph", "phlite_grpph/src/lib.rs:grpph_with_involution", "phlite_grpph/src/lib.rs:build_edge_set", "phlite_grpph/src/coboundary.rs:filtration_value"]}
{"id": "C81", "title": "Reductions over ZP never panic in the arithmetic", "statement": "With coefficients Z3, Z5, Z7, Z11 or Z13 held in a non-zero u8, standard_algo_with_diagram and the clearing algorithm never panic inside an addition, product, negation or inverse, never leave the range 1..P-1, and return exactly the V and the diagram of the same run over the field with P elements; so the pairs are the persistence pairs of the matrix over that field.", "quantifier": "all five primes, all matrices whose entries are valid ZP values, all bases and filtrations meeting the contract of the reductions, all heap implementations that only compare entries, all sufficient amounts of fuel", "why_tests_cant": "the intermediate coefficients of a reduction depend on the whole history of column additions; a test exercises a few histories, the claim is about all of them", "anchors": ["phlite/src/fields.rs:ZP", "phlite/src/reduction/standard.rs:standard_algo_with_diagram", "phlite/src/reduction/clearing.rs:ClearingAlgorithm", "phlite/src/columns.rs:BHCol"]}
{"id": "C82", "title": "Reductions over Q are right or stopped", "statement": "With coefficients Q: run the reduction with overflow checks, stopped also when an intermediate denominator reaches 2^63. Then either the run is stopped, or debug and release builds both return the same V and diagram, every coefficient of V is in lowest terms, and read as rationals V and the diagram are those of the run over the field of rational numbers, so the pairs are its persistence pairs. Without overflow checks this fails: there is a 6 by 6 integer matrix on which a release build silently reports a paired column as essential.", "quantifier": "all matrices of Q values in lowest terms, all bases and filtrations meeting the contract of the reductions, both build profiles, all heap implementations that only compare entries, all sufficient amounts of fuel", "why_tests_cant": "coefficient growth depends on the matrix and the order of column additions; only a proof covers every intermediate value", "anchors": ["phlite/src/fields.rs:Q", "phlite/src/reduction/standard.rs:standard_algo_with_diagram", "phlite/src/reduction/clearing.rs:ClearingAlgorithm", "phlite/src/columns.rs:BHCol"]}
{"id": "C83", "title": "Columns and reductions on the BinaryHeap of the standard library", "statement": "In any sequence of pushes and pops of column entries, the array algorithm of std's BinaryHeap (sift_up, sift_down_to_bottom) under the order of ColumnEntry returns None exactly when all entries have been popped, and otherwise an entry that no remaining entry exceeds in (filtration value, row index), losing and duplicating none. With this heap and ZP coefficients held in u8, standard_algo_with_diagram and the clearing algorithm return, and their pairs (and essential elements) are the persistence pairs of the matrix.", "quantifier": "all sequences of pushes and pops, all entry types; all five primes, matrices, bases and filtrations meeting the contract of the reductions", "why_tests_cant": "the heap array depends on the whole history of pushes and pops with ties; the claim covers every history", "anchors": ["phlite/src/columns.rs:BHCol", "phlite/src/columns.rs:add_entry", "phlite/src/columns.rs:pop_pivot", "phlite/src/reduction/standard.rs:standard_algo_with_diagram"]}
{"id": "C84", "title": "Lazy products over a cached matrix: transparent, or panicking exactly on uncached rows", "statement": "Let `c = m.cache_cols()` have been used in any way, with every column iterator obtained from it finished or dropped. Consuming a column of product(&c, right), where right does not read the cache, yields item for item what product(&m, right) yields, and asks m for a column exactly once for each row of the right column that had not been requested before. Consuming a column j of product(&c, &c) succeeds if and only if every row of m.column(j) is j itself or a column requested earlier; otherwise it panics (the outer iterator keeps the RefCell borrowed) although product(&m, &m) answers.", "quantifier": "all matrices, all histories of requests/iterations/drops on the cached matrix, all right columns, all columns j", "why_tests_cant": "whether the borrow conflicts depends on which columns happen to have been requested before; a test fixes one history", "anchors": ["phlite/src/matrices/adaptors.rs: WithCachedCols::column, CachedColIter", "phlite/src/matrices/combinators.rs: matrix_col_product!, Product::column", "phlite/src/matrices/mod.rs: cache_cols"]}
{"id": "C85", "title": "The standard algorithm on a cached boundary: same result, each column computed exactly once", "statement": "standard_algo_with_diagram(boundary.cache_cols(), o) never hits a borrow conflict, returns exactly the V and the diagram of standard_algo_with_diagram(boundary, o), and calls boundary.column exactly once for each basis element, in basis order, although every column is used many times.", "quantifier": "all coherent square matrices with a duplicate-free basis, both traversal directions, all heaps", "why_tests_cant": "a borrow conflict or a recomputation can occur at any step of the reduction, depending on the matrix", "anchors": ["phlite/src/reduction/standard.rs: standard_algo, read_off_diagram, standard_algo_with_diagram", "phlite/src/matrices/adaptors.rs: WithCachedCols", "phlite/src/matrices/mod.rs: cache_cols ('each column is only computed once')"]}
{"id": "C86", "title": "Clearing on a cached boundary: same result, and a cleared cell's boundary column is never computed", "statement": "ClearedReductionMatrix::build_with_diagram on boundary.cache_cols() returns the V and the diagram it returns on &boundary, never hits a borrow conflict, computes no boundary column twice, and computes exactly the columns of the cells that are not the birth of a finite pair, in visiting order: the optimisation really skips every cleared column. Afterwards a cleared column of V can be iterated, but iterating that column of product(&cached, &V) always panics, although it is available on the plain boundary.", "quantifier": "all block complexes (graded complexes presented dimension by dimension in the clearing order), all heaps, all cleared cells", "why_tests_cant": "the skipped work is invisible in the output, and it must be skipped for every complex; the panic depends on which columns were computed", "anchors": ["phlite/src/reduction/clearing.rs: reduce_column, reduce_dimension, build_with_diagram, ClearedReductionMatrix::column", "phlite/src/matrices/adaptors.rs: WithCachedCols", "phlite/src/matrices/combinators.rs: matrix_col_product!"]}
{"id": "C87", "title": "Repeating points does not change the bars", "statement": "If the points of one distance matrix are copies of the points of another, each of which has at least one copy, then persistent cohomology of the two Vietoris-Rips filtrations has the same essential births and the same bars of positive length in every dimension up to max_dim, with any field; and the Rips program prints the same bars of dimension and times (only the simplices and the basis sizes differ).", "quantifier": "all distance matrices, all ways of repeating and reordering their points, all fields, all maximal dimensions, all reduction fuels above the basis size, all tie breaking heaps", "why_tests_cant": "ranges over every table and every multiset of repetitions; the chain homotopy argument works in all dimensions at once", "anchors": ["phlite_rips/src/cohomology.rs:build_rips_coboundary_matrix", "phlite_rips/src/main.rs:main", "phlite/src/reduction/clearing.rs:ClearedReductionMatrix::build_with_diagram"]}
{"id": "C88", "title": "Stability under correspondences between inputs of different sizes", "statement": "Let two distance matrices, perhaps with different numbers of points, be related by a correspondence (every point on either side related to one on the other). If related points within s of each other are within s' on the other side, and related points within t' on the other side are within t, then at least as many bars of the second contain [s', t'] as bars of the first contain [s, t], in every dimension up to max_dim. In particular if related distances differ by at most delta, bars that contain [s, t + delta] are no more than the bars on the other side that contain [s + delta, t] (Gromov-Hausdorff stability).", "quantifier": "all pairs of distance matrices over any ordered types, all correspondences, all dimensions and thresholds, all fields", "why_tests_cant": "a statement about all pairs of inputs and all thresholds", "anchors": ["phlite_rips/src/cohomology.rs:build_rips_coboundary_matrix", "phlite_rips/src/main.rs:main", "phlite/src/reduction/clearing.rs:ClearedReductionMatrix::build_with_diagram"]}
{"id": "C89", "title": "Weakly monotone functions of the distances act on the bars", "statement": "If every distance of a Rips input is replaced by its image under a weakly monotone function g (capping at a maximal scale, rounding to a grid, squaring), then, in each degree up to max_dim, the bars of the new diagram are exactly the images under g of the bars of the old one, the bars whose two ends become equal being the ones that disappear; births of essential classes are mapped by g.", "quantifier": "every input of the Rips pipeline, every weakly monotone g between any two ordered value types, every field, heap implementation and max_dim >= 1 within the code range", "why_tests_cant": "rounding or capping creates arbitrary ties between simplices, so the reductions take different pivots and pair different simplices; the claim is about all functions g and all inputs.", "anchors": ["phlite_rips/src/cohomology.rs:build_rips_coboundary_matrix", "phlite_rips/src/main.rs:main", "phlite/src/reduction/clearing.rs:ClearedReductionMatrix::build_with_diagram"]}
{"id": "C90", "title": "Bottleneck (Gromov-Hausdorff) stability of the Rips diagram", "statement": "If two Rips inputs are related by a correspondence of their points under which distances differ by at most delta (the same points measured with error delta, or a subsample), then in each degree up to max_dim their bars can be matched one to one so that matched births and deaths differ by at most delta and every bar left over is no longer than 2 delta; essential classes are all matched, with births within delta. The program's output satisfies the same, bars left over being no longer than 2 delta plus the length below which it does not print.", "quantifier": "every pair of distance matrices, correspondence and delta, values being read as integers by an order embedding (all finite doubles are), every field, heap implementation and max_dim >= 1 within the code range", "why_tests_cant": "it asserts the existence of a matching between the outputs of two different reductions for every perturbation; a test can only compare outputs for chosen pairs of inputs.", "anchors": ["phlite_rips/src/cohomology.rs:build_rips_coboundary_matrix", "phlite_rips/src/main.rs:main", "phlite/src/reduction/clearing.rs:ClearedReductionMatrix::build_with_diagram"]}
{"id": "C91", "title": "grpph moves bar by bar when the weights move", "statement": "Take two digraphs with the same edges and positive weights, such that every walk of one has a counterpart of at most the shifted length in the other (for instance all weights changed by a factor between 1/c and c, shift being multiplication by c). Then grpph returns the same essential bars for both, the same number of finite bars, and the finite bars can be matched one to one, all of them, so that each death is at most the shift of its partner's death.", "quantifier": "every pair of such digraphs with fewer than 65536 vertices, every monotone shift, every shortest-path library meeting its contract and every heap implementation", "why_tests_cant": "it asserts the existence of a complete matching between the results of two different reductions for every perturbation of the weights.", "anchors": ["phlite_grpph/src/lib.rs:grpph", "phlite_grpph/src/coboundary.rs:GrPPHCoboundary", "phlite/src/reduction/clearing.rs:ClearedReductionMatrix::build_with_diagram"]}
{"id": "C92", "title": "grpph in two arithmetics gives the same bars up to the arithmetics' error", "statement": "Run grpph on the same edges in two number types with two additions (for instance doubles and exact numbers) whose walk lengths agree up to an error relation that is exact at zero. Then both runs return the same numbers of essential bars, and the finite bars can be matched one to one, all of them, born at zero with deaths that agree up to the error.", "quantifier": "every pair of totally ordered number types, additions, weights, error relations, every digraph with fewer than 65536 vertices, every shortest-path library meeting its contract and every heap implementation", "why_tests_cant": "it compares the run with an idealised run in another number system, for every input.", "anchors": ["phlite_grpph/src/lib.rs:grpph", "phlite_grpph/src/coboundary.rs:GrPPHCoboundary"]}
{"id": "C93", "title": "grpph on doubles is the exact diagram up to rounding", "statement": "With non-negative double weights (infinite, or at most 2^1007) grpph returns as many essential bars as the exact filtration by real shortest-path lengths has, and its finite bars match those of the exact diagram one to one, each death within the factor (1+2^-53)^(n-2) of the exact one.", "quantifier": "every digraph with fewer than 65536 vertices and every such weights, every shortest-path library meeting its contract in double arithmetic, every heap implementation", "why_tests_cant": "rounding errors depend on all weights, and the exact diagram is over the real numbers.", "anchors": ["phlite_grpph/src/lib.rs:grpph", "phlite_grpph/src/lib.rs:build_filtration"]}
{"id": "C94", "title": "grpph on doubles is exact for integer-like weights", "statement": "If the finite weights are multiples k*2^e of a power of two with k between 0 and m and (n-1)*m is at most 2^53 (for instance integers up to 2^37), the finite bars returned by grpph are exactly those of the real shortest-path filtration.", "quantifier": "every digraph with fewer than 65536 vertices, every such weights, e between -1074 and 971", "why_tests_cant": "exactness has to hold for every sum along every walk.", "anchors": ["phlite_grpph/src/lib.rs:grpph"]}
{"id": "C95", "title": "The Rips program on doubles prints the bars longer than 0.01", "statement": "On a distance matrix of doubles (infinite distances allowed) the program prints the essential class of vertex 0 and, of the finite bars of the Vietoris-Rips filtration, only bars longer than 1/100 or ending at infinity, and all bars of length at least 1/100 + 2^-58; nothing is printed when the difference is NaN.", "quantifier": "every distance matrix of doubles, every max_dim for which codes fit, every heap implementation", "why_tests_cant": "the comparison happens after rounding; the statement is about real lengths of all bars of all inputs.", "anchors": ["phlite_rips/src/main.rs:main"]}
{"id": "C96", "title": "The output of the Rips program on doubles is stable", "statement": "If two distance matrices of doubles are related by a correspondence that changes distances by at most delta (a real number), the bars printed for them in each dimension can be partially matched so that matched bars have ends within delta, and unmatched bars are no longer than 2*delta + 1/100 + 2^-58.", "quantifier": "every pair of such matrices, every correspondence and real delta, every max_dim for which codes fit, every heap implementation", "why_tests_cant": "it asserts the existence of a matching for all perturbations.", "anchors": ["phlite_rips/src/main.rs:main"]}
{"id": "C97", "title": "The shortest-path step of grpph is correct", "statement": "For every digraph with non-negative weights and every source vertex, the Dijkstra search that grpph runs ends and returns, for each vertex, the length of a shortest walk from the source if there is one and nothing otherwise; additions may round as long as they are monotone and never decrease a non-negative sum.", "quantifier": "every digraph, every totally ordered number type with such an addition, every source, every order in which the graph lists the edges of a vertex and every priority queue that returns some entry of least score, the binary heap of the standard library in particular", "why_tests_cant": "correctness is an invariant of the search on all graphs and all ways of breaking ties in the queue.", "anchors": ["phlite_grpph/src/lib.rs:build_filtration"]}
{"id": "C98", "title": "The shortest-path step of grpph finds the reachable vertices whatever the weights", "statement": "Whatever the weights (negative ones included) the search ends, returns a value for exactly the vertices that can be reached from the source, and each value is the length of some walk to the vertex. With negative weights it need not be the least length: this is refuted by an example.", "quantifier": "every digraph and weights, every addition and order, every source, every order of the edges and of the queue", "why_tests_cant": "reachability and termination have to hold on all graphs.", "anchors": ["phlite_grpph/src/lib.rs:build_filtration"]}
{"id": "C99", "title": "grpph on doubles, from the edge list to the diagram", "statement": "As C93 with no assumption about a shortest-path library: grpph with its Dijkstra search on non-negative double weights returns the exact diagram of the real shortest-path filtration up to the factor (1+2^-53)^(n-2) in the deaths. (With negative weights grpph returns without complaint a bar that ends before it begins: example.)", "quantifier": "every digraph with fewer than 65536 vertices, all such weights, every order of edges, every heap implementation of the columns", "why_tests_cant": "it composes the correctness of the search, of the reduction and of rounding for all inputs.", "anchors": ["phlite_grpph/src/lib.rs:grpph", "phlite_grpph/src/lib.rs:build_filtration"]}
{"id": "C100", "title": "No Rips bar outlives the enclosing radius, and distances beyond it do not matter", "statement": "If some point is within r of every other point, every bar of positive length that the Rips cohomology run reports, in any dimension, dies at r or before; the same holds for every line the Rips program prints. Replacing every distance above r by r leaves the births of the classes that never die and all bars of positive length unchanged, so the usual truncation of the distance matrix at the enclosing radius is safe.", "quantifier": "all symmetric distance matrices with zero diagonal, all totally ordered weights, all coefficient fields, all max_dim >= 1, all r that some point attains", "why_tests_cant": "It is a statement about the homology of every Rips complex past a threshold (the complex becomes a cone); a test can only look at a few matrices.", "anchors": ["phlite_rips/src/cohomology.rs:build_rips_coboundary_matrix", "phlite_rips/src/main.rs:main", "phlite/src/reduction/clearing.rs:build_with_diagram"]}
{"id": "C101", "title": "Dimension-0 Rips bars are the edges of a minimum spanning tree", "statement": "The dimension-0 pairs that the Rips cohomology run reports are (0, w) for w running over the edge lengths of a minimum spanning tree of the points, with multiplicity: the same for every minimum spanning tree, whether minimum means that the edges can be matched with those of any other tree so that none is longer, or that the total length is least. The lines of dimension 0 that the program prints are those edges that pass its length filter.", "quantifier": "all non-empty distance matrices, all coefficient fields, all totally ordered weights, all max_dim >= 1, all minimum spanning trees", "why_tests_cant": "compares the output with an optimum over all spanning trees of every input", "anchors": ["phlite_rips/src/cohomology.rs:build_rips_coboundary_matrix", "phlite_rips/src/main.rs:main", "phlite/src/reduction/clearing.rs:build_with_diagram"]}
{"id": "C102", "title": "Bars count the simplices of every level; Euler characteristic", "statement": "At every threshold t and in every dimension k <= max_dim, the number of k-simplices of diameter at most t equals the number of reported k-dimensional births by t (essential or paired) plus the number of (k-1)-dimensional bars dead by t. When all dimensions are computed, the alternating number of bars alive at t is the Euler characteristic of the Vietoris-Rips complex at t.", "quantifier": "all rips matrices with at least one point, all thresholds, all fields, all dimensions up to max_dim", "why_tests_cant": "an identity between the output and the whole complex at every threshold of every input", "anchors": ["phlite_rips/src/cohomology.rs:build_rips_coboundary_matrix", "phlite_rips/src/main.rs:main", "phlite/src/reduction/clearing.rs:build_with_diagram"]}
{"id": "C103", "title": "GrPPH on raw doubles: NaN and -0.0 weights", "statement": "grpph and grpph_with_involution accept any f64 weights except minus infinity without panicking on a NaN: the result is exactly that for the weights in which every NaN is replaced by +infinity (the edge is grounded but carries no path) and every -0.0 by 0. In particular, for weights that are NaN, infinite or between -0.0 and 2^1007 the bars are those of the exact real shortest-path filtration up to the rounding factor (1+2^-53)^(n-2). (With a weight of minus infinity the call can panic: an overflowed path length plus minus infinity is NaN.)", "quantifier": "all digraphs with raw double weights (NaN, both zeros, +infinity, negative finite numbers), all heap tie-breakings, all fuels", "why_tests_cant": "NaN breaks the order on which both Dijkstra's queue and the filtration rest; that it never enters the scores has to be shown for every graph and every run of the queue.", "anchors": ["phlite_grpph/src/lib.rs: build_filtration, build_edge_set, grpph, grpph_with_involution"]}
{"id": "C104", "title": "GrPPH of a disjoint union is the union of the diagrams", "statement": "Run grpph on a weighted digraph made of two digraphs side by side (the second with its vertices renumbered after those of the first): in every dimension the essential classes and the finite bars are, as multisets, those of the two separate runs put together. In particular adding isolated vertices (raising the vertex count) adds exactly one essential class in dimension 0 per vertex and changes no other bar.", "quantifier": "all pairs of weighted digraphs with fewer than 2^16 vertices in total and nonnegative weights, all totally ordered weights with a monotone addition, all shortest-path libraries, all heap tie-breakings of the three runs, all large enough fuels", "why_tests_cant": "The three runs enumerate different cells in different orders and reduce different matrices; agreement has to hold for every pair of graphs and every order of ties.", "anchors": ["phlite_grpph/src/lib.rs: grpph, build_filtration, build_edge_set", "phlite_grpph/src/boundary.rs; phlite_grpph/src/coboundary.rs"]}
{"id": "C105", "title": "Raising the Rips program's maximal dimension adds bars and changes none", "statement": "Run the Rips computation twice on the same distances with maximal dimensions m <= m': the pairs (birth simplex, death simplex) of the first run are exactly the pairs of the second whose birth simplex has dimension at most m, the essential classes are the same, and at the level of the program the printed lines of the first run are, up to order, the printed lines of the second for dimensions up to m (the sizes of the bases being a prefix). The width of the index type and the heaps may also differ.", "quantifier": "all square tables of distances with zero diagonal dominated by their upper triangle, all 1 <= m <= m', all index widths in which the codes fit, all heap tie-breakings, all large enough fuels, all fields", "why_tests_cant": "The second run reduces a larger matrix with more columns and clears more of them; equality of the common part must hold for every distance table.", "anchors": ["phlite_rips/src/lib.rs:build_rips_bases", "phlite_rips/src/cohomology.rs:build_rips_coboundary_matrix", "phlite_rips/src/main.rs:main"]}
{"id": "C106", "title": "Dimension-0 Rips bars are the same over every field; higher bars are not", "statement": "The bars of dimension 0 computed by the Rips cohomology run are, as a multiset of (birth, death), the same for any two coefficient fields (and the same essential class). In dimension 1 this fails: for eleven points triangulating the projective plane the run over Z2 reports the loop (3, 5) and the run over Z3 reports none.", "quantifier": "all distance matrices, all pairs of coefficient fields, all maximal dimensions, index widths and heap tie-breakings; for the second half the exhibited matrix", "why_tests_cant": "Independence ranges over all distance matrices and all fields.", "anchors": ["phlite_rips/src/cohomology.rs:RipsCoboundary", "phlite/src/fields.rs:Z2", "phlite/src/fields.rs:ZP"]}
{"id": "C107", "title": "Extending the coefficient field changes no diagram", "statement": "If one coefficient field embeds in another and two matrices have corresponding entries, then the standard algorithm (in either traversal direction), the clearing algorithm and the Rips cohomology run return the same pairs and the same essential elements over both fields. So an implementation of Z2 by another type, or of a larger field of characteristic 2, gives the bars of Z2.", "quantifier": "all fields, all embeddings, all matrices with coherent filtrations, all bases, all heap tie-breakings, all large enough fuels", "why_tests_cant": "The fields and the matrices range over all implementations of the coefficient trait and all inputs.", "anchors": ["phlite/src/fields.rs:NonZeroCoefficient", "phlite/src/fields.rs:Invertible", "phlite/src/reduction/standard.rs:standard_algo_with_diagram", "phlite/src/reduction/clearing.rs:build_with_diagram"]}
{"id": "C108", "title": "Groups of points far apart: the Rips bars of the union are those of the groups", "statement": "Let the points be divided into two groups (given by two lists of point numbers, in any order) such that every distance between the groups is at least g. Run the Rips computation on all points and on each group separately. In every dimension the bars of all points that end before g are, as a multiset, those of the one group and those of the other, and likewise for the births before g of classes still there at g. If moreover the distances inside each group are less than g, then the bars of dimension >= 1 that begin before g are exactly all bars of the two groups, none of them outlives g, and the bars of dimension 0 that end before g are exactly the bars of dimension 0 of the groups. The same holds of the lines the Rips program prints.", "quantifier": "all distance matrices, all divisions of the points in two groups, all gaps g, all coefficient fields (Z2 for the program), all maximal dimensions >= 1, index widths in which the codes fit, heap tie-breakings and large enough fuels", "why_tests_cant": "The claim relates three runs on different matrices with different simplex codes, for every distance matrix and every division.", "anchors": ["phlite_rips/src/cohomology.rs:build_rips_coboundary_matrix", "phlite_rips/src/cohomology.rs:RipsCoboundary", "phlite_rips/src/main.rs:main", "phlite/src/reduction/clearing.rs:build_with_diagram"]}
{"id": "C109", "title": "Exactly what Q arithmetic computes in a release build", "statement": "In a build without overflow checks: the product of two Q values is n/d divided by gcd(n, d), where n and d are the signed and unsigned 64-bit words congruent to the exact products of numerators and denominators modulo 2^64 (with the sign flipped if the gcd is 2^63, and 0/1 if it is larger), and panics exactly if both words are 0, which cannot happen for fractions in lowest terms; for those it is stored with numerator 0 iff 2^64 divides the product of the numerators, and with denominator 0 iff 2^64 divides that of the denominators. The sum wraps the least common denominator l, then wraps (l / den a) * num a + (l / den b) * num b, is None iff this word is 0, and never panics on non-zero denominators. Negation and inversion wrap likewise. Whenever a debug build returns a value, a release build returns the same value.", "quantifier": "all pairs of a 64-bit signed numerator and a 64-bit unsigned denominator", "why_tests_cant": "Overflow behaviour ranges over all pairs of 128-bit values.", "anchors": ["phlite/src/fields.rs:Q", "phlite/src/fields.rs:reduce"]}
{"id": "C110", "title": "Reversing every edge does not change the bars of grpph", "statement": "Run grpph on a weighted digraph and on the digraph in which every edge u -> v has become v -> u with the same weight. In exact arithmetic (any commutative and associative addition of non-negative weights) the essential births and the (birth, death) pairs of each dimension are the same multisets. On doubles with Dijkstra on std's heap the essential classes are the same and the finite bars match one to one with deaths equal up to the factor (1+2^-53)^(2(n-2)); they are exactly the same if the weights are multiples of a power of two with sums below 2^53 multiples (for example integers).", "quantifier": "all weighted digraphs on fewer than 65536 vertices with non-negative (possibly infinite) weights, all heap implementations and correct shortest-path routines", "why_tests_cant": "A metamorphic relation over all digraphs; the two runs build different bridges, different cells and different columns.", "anchors": ["phlite_grpph/src/lib.rs:grpph", "phlite_grpph/src/coboundary.rs:PrimaryBridgeMap"]}
{"id": "C111", "title": "Changing the unit of the weights changes the unit of the grpph bars and nothing else", "statement": "Apply to every weight a function that respects order, sums, zero and infinity (for example multiplication by a constant in exact arithmetic): grpph returns the same numbers of essential classes and, as a multiset, the images of the (birth, death) pairs. On doubles: if every finite weight is multiplied by 2^k, k >= 0, and all weights stay at most 2^1007 (infinite ones staying infinite), the two runs return the same essential classes and every death of the second run is exactly 2^k times that of its partner, although both runs round.", "quantifier": "all weighted digraphs on fewer than 65536 vertices with non-negative weights, all unit changes, all exponents k, all heap implementations and correct shortest-path routines", "why_tests_cant": "A metamorphic relation over all digraphs and all doubles, including subnormal weights and sums that round.", "anchors": ["phlite_grpph/src/lib.rs:grpph", "phlite_grpph/src/lib.rs:build_filtration"]}
{"id": "C112", "title": "grpph depends only on which pairs carry an edge and on the shortest lengths", "statement": "Two weighted digraphs on the same vertices with edges between the same ordered pairs and the same shortest finite path lengths get the same essential classes and the same multisets of (birth, death) pairs from grpph, whatever their weights. In particular, in exact arithmetic an edge that is no shorter than a detour along the other edges may be given any other such weight, infinity included (but it cannot be dropped: it stays a ground edge), and of parallel edges only the lightest matters, on doubles with rounding sums too.", "quantifier": "all weighted digraphs on fewer than 65536 vertices with non-negative weights, all such changes of weights, all heap implementations and correct shortest-path routines (Dijkstra for the statement on doubles)", "why_tests_cant": "A metamorphic relation between two runs over all digraphs; the two runs sort and pair columns in different internal orders.", "anchors": ["phlite_grpph/src/lib.rs:grpph", "phlite_grpph/src/lib.rs:build_filtration"]}
{"id": "C113", "title": "The gap between two groups of points is exactly one more Rips bar of dimension 0", "statement": "Split the points into two non-empty groups that are exactly g apart (no closer, and some two points at distance g), each group having diameter less than g. Then the dimension-0 bars of positive length of all points are, as a multiset, those of the one group, those of the other and the single bar (0, g). The command-line program prints, for dimension 0, the lines of both groups plus the line (0, g) exactly when g - 0 exceeds the threshold 0.01.", "quantifier": "all distance matrices, all such splittings, all coefficient fields (library), all maximal dimensions at least 1 whose simplex codes fit in a usize, all heaps", "why_tests_cant": "A relation between three runs over all point sets and all splittings.", "anchors": ["phlite_rips/src/main.rs:main", "phlite_rips/src/cohomology.rs:build_rips_coboundary_matrix", "phlite/src/reduction/clearing.rs:ClearedReductionMatrix::build_with_diagram"]}
{"id": "C114", "title": "GrPPH of two digraphs that share one vertex is the union of their diagrams", "statement": "If no vertex but v is an end of edges of both edge lists, and not both lists contain a loop at v, then the dimension-1 essential classes and pairs that grpph returns for the concatenated list are, as multisets, those of the first list together with those of the second (run on the same number of vertices), and the numbers of components satisfy c + n = c1 + c2. In particular attaching a forest at a vertex changes nothing in dimension 1, whatever its weights. If both lists contain a loop at v the claim fails (the loop is counted once). An edge that joins two disjoint digraphs changes nothing in dimension 1 either. On doubles with Dijkstra's algorithm all this holds with equality of doubles, not only up to rounding.", "quantifier": "all vertex counts below 65536, all non-negative weights in any ordered type with a monotone addition (rounding allowed), all edge lists, all heaps and shortest-path libraries meeting their contract", "why_tests_cant": "A relation between three runs over all pairs of digraphs.", "anchors": ["phlite_grpph/src/lib.rs: grpph, build_filtration, build_edge_set", "phlite_grpph/src/boundary.rs; phlite_grpph/src/coboundary.rs"]}
