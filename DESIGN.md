# Formal model of phlite in Coq 8.16.1

This file is written by `design.py` (text in `design_head.md`, tables from `properties.jsonl`, `MANIFEST.json` and the
sources). `manifest.py` writes `MANIFEST.json`.

## Method

Model files translate the Rust source function by function; each definition cites the file and lines it models and says
where it simplifies. Specification files (`Spec*.v`) define coefficients, leading rows, triangular and reduced
decompositions, intrinsic persistence pairs, persistent homology, simplices, digraphs, path homology, walks - without
reference to the algorithms. Property theorems (`Prop*.v`) relate the two for all inputs. Examples beside the theorems
instantiate the hypotheses on concrete non-trivial cases. `seeded/LOG.jsonl` records the wrong programs on which the
theorems were tested.

## Modelling decisions

* **Panics** (`unwrap`, `expect`, indexing, `panic!`, checked arithmetic) are the value `Panic` of the `res` monad. Loops that
  are not structurally bounded take fuel and return `NoFuel` when it runs out; the theorems say that for every
  sufficiently large fuel the result is `Ok`, so `NoFuel` is excluded by the statement.
* **Trait contracts.** `BasisElement`/`FiltrationValue` are total orders whose `Equal` is equality (`ordT`). `NotNan<f64>` is
  any such order with a distinguished zero (+0.0 and -0.0 are identified, as `NotNan`'s `Eq` does). Where floating-point
  addition matters (shortest paths) only `nonneg_add` is assumed: `0 + w = w` and sums dominate their summands, which
  rounding respects. `Float64.v` instantiates all of this with IEEE 754 binary64 (Flocq's `binary_float 53 1024`, round to nearest even, one NaN):
  `notnan_ord`, `add64`, `sub64` (C93-C96, C99, C103). There a NaN result (`inf - inf`, which occurs only in the program's comparison with 0.01) is represented by minus
  infinity, which like NaN is not greater than 0.01. `NonZeroCoefficient + Invertible` is `coeffT`: operations on the non-zero elements such that adding
  `None` as 0 gives a field. `Z2`, `ZP` for the provided primes and the ideal rationals are proved to be instances.
* **`BinaryHeap`** is *any* heap satisfying push/pop/peek laws on multisets (`heaps`); theorems quantify over all of them,
  hence over all tie-breakings. Instances are constructed, so the quantification is not vacuous; one of them (`StdHeap.v`, C83) is
  the array algorithm of the Rust standard library.
* **`FxHashMap`/`FxHashSet`** are association lists with `get`/`insert`; results are stated by membership or up to
  permutation, so iteration order does not matter.
* **Iterators** are lists (all are pure and consumed in order); the one stateful iterator, the `RefCell`-backed cached
  column, is a state machine with live borrows.
* **Matrices** are records of functions `column`, `filtration_value`, `column_with_filtration`; the last is a separate field
  because Rust types may override it, while `&M`, `MatrixWithBasis` etc. fall back to the default. Which of them a call
  reaches follows Rust's method resolution: in `standard_algo` and in clearing `boundary.build_bhcol` uses M's own method;
  `product(&boundary, _)` uses the default; `standard_algo_with_diagram` passes `&boundary`, hence the default.
* **Machine integers**: ranges and wrap-around are explicit in `Q`, in `RipsIndex` and in the `u16` casts of GrPPH, under both
  build profiles where they differ. `Machine.v` models columns, products and both reductions again over coefficient operations
  that may panic; C81 and C82 connect those runs to the runs over ideal fields, for heaps that only compare entries
  (`uniform`: relabelling coefficients commutes with the heap operations). Loop counters and vertex numbers are `nat`.
* **Shortest paths** are a function parameter of the model of grpph; theorems C57-C60, C62, C63, C65-C67, C69, C91-C94 assume the contract
  `shortest_path_library` (for every list of non-negatively weighted edges it returns lengths of shortest walks). `Dijkstra.v` models the loop of petgraph 0.6.5's
  `dijkstra` (from its published source, petgraph is not in the repository) and C97 proves that it meets the contract for every priority queue that returns an
  entry of least score (std's `BinaryHeap` on `MinScored` is one) and every order of the adjacency lists; C99 uses it inside grpph. `ShortestPaths.v` proves the contract for a Bellman-Ford
  implementation too.

## What is modelled and what is not

Modelled: `phlite/src/fields.rs`, `columns.rs`, `matrices/{mod,adaptors,combinators,implementors}.rs`,
`reduction/{mod,standard,clearing}.rs`; `phlite_rips/src/{lib,homology,cohomology,main}.rs`;
`phlite_grpph/src/{coboundary,boundary,lib}.rs` and `bin/main.rs`.

Not modelled: `phlite_py` (every ordering and equality method is `todo!()`), `Debug` formatting, text output of the command-line
program, the scanner of the csv crate and the parsing of single numbers (their results are arguments of `rips_cli`), logging, the PyO3 glue, petgraph's graph storage (contract: `adjacency`), ordered-float (contracts above), memory layout and the `unsafe`
pointer casts behind `ReverseBasis`/`UnreverseBasis::deref` (modelled by their effect), integer overflow of loop
counters and vertex numbers other than stated above, `phlite_grpph/src/bin/stub_gen.rs`, performance.

## Trusted base

Coq's kernel (8.16.1, with `vm_compute` used for examples and finite computations); the faithfulness of the hand-written
model to the Rust source (`ModelTests.v` replays every unit test of the repository that asserts something about behaviour, with the asserted
values); the readings in the specification files. No axioms of our own. All theorems but those named next are "Closed under
the global context" (list at the end). Those about doubles (`C93_double_grpph`, `C94_exact_doubles`, `C95_rips_program_doubles`, `C96_rips_program_stability`, `C99_grpph_dijkstra`, `C103_raw_doubles`, `C103_raw_bars`, `C110_reversal_doubles`, `C110_reversal_exact_doubles`, `C111_double_units`, `C112_parallel_doubles`, `C114_doubles`) and `C101_least_total_length` speak about real numbers and rest on the axioms of the standard library's real numbers, through `Reals` and Flocq (Flocq adds none):
`ClassicalDedekindReals.sig_forall_dec`, `ClassicalDedekindReals.sig_not_dec`, `FunctionalExtensionality.functional_extensionality_dep` and
`Classical_Prop.classic`. `vcheck` also reports seven constants of the standard library module
`Coq.ssr.ssrunder` (`Under_rel`, `Under_rel_from_rel`, `Under_relE`, `Over_rel`, `over_rel`, `over_rel_done`, `under_rel_done`); they come with loading the library
`ssreflect` through standard-library files and no theorem depends on them. It also lists the sealed constants of `Coq.Reals.Rdefinitions` (`RbaseSymbolsImpl.R`, `Rplus`, `Rplus_def`, ..., `RinvImpl.Rinv`, `Rinv_def`): they
are defined in that file by modules with opaque ascription, which `coqchk` counts as axioms and `Print Assumptions` does not.

## Findings about the code

Each is a theorem (or an example) about the model.

* C05: `Q` with magnitudes of 2^63 is silently wrong even with overflow checks (gcd or denominator cast to a negative `isize`).
* C82: without overflow checks a reduction over `Q` can silently return a wrong diagram (a 6 by 6 integer matrix).
* C19: `cache_cols` panics when a column is requested while an iterator over an uncached column is alive; `product` of a
  cached matrix with itself does that; C84: exactly when some row of the column was not requested before.
* C86: after a clearing reduction of a cached boundary, iterating a cleared column of `product(&cached, &V)` always panics.
* C28: a wrong `reverse_order` flag corrupts the essential set and leaves the pairs intact.
* C36: `RipsIndex` overflows for moderate dimension and number of vertices; in release two simplices get the same index.
* C38: `build_rips_bases` panics for `max_dim = 0` with two or more points.
* C43: `RipsCoboundary::column_with_filtration` (the override) panics or disagrees with `filtration_value`; built matrices avoid
  it because they go through the default method.
* C47, C50: shortest-path sums that overflow to infinity break the coherence of times; `n_vertices >= 65536` is truncated to
  `u16`, so whole vertices disappear; an edge that mentions a vertex not below `n_vertices` panics.
* C60: a loop (i, i) in the input gives an essential class of dimension 1 (loops stay in the ground complex and never
  become boundaries).
* C61: representatives are not returned in the order of the bars (both iterate over hash sets).
* Documentation: the digits of `{0,1}` and the formula for `ReverseBasis` in comments are off by one; `reverse(StandardBasis)`
  queried out of range returns garbage in release builds.
* C74: the Rips basis reads only `distances[w][v]` with `w < v` and 0 for vertices, while `filtration_value` reads all ordered pairs
  including the diagonal. The times agree exactly for tables with zero diagonal in which no entry below the diagonal exceeds both 0
  and its mirror image (`rips_matrix`: symmetric tables, zero-filled upper triangular tables). A zero-filled *lower* triangular table
  is accepted and gives wrong bars without an error.
* C78: nothing checks the order of the dimensions passed to the clearing reduction. Any order gives the right pairs, but in the wrong
  direction (downwards for a coboundary, upwards for a boundary) every birth is also listed as an essential class, without an error.
* C80: an edge whose end (cast to `u16`) is not below `n_vertices` makes `grpph` panic in the middle of the reduction (after the columns
  before it in the filtration order have been reduced), whatever the rest of the input; there is no check at the start.

## Files (rocq/theories)

| file | contents |
|---|---|
| `Base.v` | Common infrastructure: panics, total orders, finite maps and sets |
| `Fields.v` | Model of phlite/src/fields.rs |
| `FieldsFacts.v` | Proofs about [Fields.v]: the provided coefficient types are fields |
| `FieldsQ.v` | The ideal field of rationals as a coefficient type, and the relation between the machine type [Q(isize, usize)] (fields.rs 253-304) and it |
| `PropFields.v` | Properties of the coefficient types (C01-C05) |
| `Spec.v` | The independent specification: formal linear combinations, leading terms, matrix products, triangular/reduced matrices and the intrinsic persistence pairing |
| `LinAlg.v` | Linear algebra over the specification of [Spec] |
| `Columns.v` | Model of phlite/src/columns.rs |
| `ColumnsFacts.v` | Facts about [Columns]: what a [BHCol] denotes, and what the pivot operations do to the denotation |
| `ColumnOps.v` | Histories of calls on a [BHCol] and their specification as operations on a formal sum |
| `PropColumns.v` | Properties of columns (C06-C10) |
| `Matrices.v` | Model of phlite/src/matrices/{mod,adaptors,combinators,implementors}.rs |
| `SpecMat.v` | What a matrix oracle denotes, and the contract between the methods of [HasRowFiltration] and [ColBasis] that the library asks of its users |
| `MatricesFacts.v` | Facts about the matrix model used by the reduction proofs |
| `Reduction.v` | Model of phlite/src/reduction/{mod,standard,clearing}.rs |
| `LoopProofs.v` | The column-reduction loop shared by the standard and the clearing algorithm, with the access to the already reduced columns abstracted |
| `StandardProofs.v` | The standard algorithm: termination, no panics, [R = D V] reduced |
| `ReadOffProofs.v` | [read_off_diagram]: what is listed, in either direction |
| `Graded.v` | Intrinsic pairs of a graded complex: degrees, births are cycles, the partition of the basis |
| `StandardResults.v` | The properties of the standard algorithm, assembled |
| `Examples.v` | Concrete matrices used to show that the hypotheses of the property theorems can be met |
| `PropMatrices.v` | Properties of matrices, adaptors and combinators (C11-C17, C20, C21) |
| `PropCache.v` | Properties of the caching wrapper (C18, C19) and concrete instances for the matrix properties |
| `Determinism.v` | Two presentations of the same matrix give literally the same results |
| `PropStandard.v` | Property theorems C22-C29: the standard algorithm and [read_off_diagram] |
| `ClearingProofs.v` | The clearing algorithm: termination, no panics, a valid decomposition |
| `PropClearing.v` | Property theorems C30-C33: the clearing algorithm |
| `Duality.v` | Pairs of a matrix and of its anti-transpose |
| `PropDuality.v` | Property theorems C34: a matrix and its anti-transpose have the same pairs |
| `Rips.v` | Model of phlite_rips/src/{lib,homology,cohomology}.rs |
| `SpecRips.v` | Specification of the Vietoris-Rips part: simplices, faces, signs, place-value codes, diameters |
| `RipsCode.v` | Codes of simplices: [from_indices] and [to_vec] |
| `RipsFacts.v` | Facts about the Rips (co)boundary columns |
| `RipsBasis.v` | Filtration values and the construction of the bases |
| `PropRips.v` | Property theorems C35-C43: the Vietoris-Rips matrices and bases |
| `RipsComplex.v` | The reversed Rips coboundary is a graded complex in the sense of the clearing algorithm |
| `RipsCohomology.v` | Lemmas for the end-to-end statements about Rips persistent cohomology |
| `PropRipsCohomology.v` | Property theorems C44: the Rips pipeline from distances to diagram |
| `GrpphCells.v` | The cells of grounded path homology (phlite_grpph/src/coboundary.rs 16-40) and their derived order |
| `Grpph.v` | Model of phlite_grpph/src/{coboundary,boundary,lib}.rs |
| `SpecGrpph.v` | Specification of grounded persistent path homology: filtered digraphs, two-paths, bridges, the generating 2-cells and the boundary of regular paths |
| `SpecPath.v` | Specification of grounded persistent path homology from the definition: chains of edges and of two-edge paths, the boundary-invariant 2-paths of the digraph at a time, cycles, boundaries, and the dimension of the image of the homology at one time in the homology at another |
| `GrpphFacts.v` | The model of the path-homology coboundary against its specification |
| `GrpphColumns.v` | Columns of the path-homology coboundary: what they list, with which coefficients and times |
| `GrpphComplex.v` | The path-homology matrices as a filtered complex: filtration values, bases, products |
| `PathBasis.v` | The generating 2-cells born by a time are a basis of the boundary-invariant 2-paths at that time |
| `GrpphReduce.v` | The reversed path-homology coboundary satisfies the contract of the clearing algorithm; its pairs are those of the boundary matrix on nodes, edges and generating 2-cells |
| `GrpphList.v` | Every filtered digraph has a listing of its cells |
| `PropGrpph.v` | Property theorems C45-C49: the path-homology matrices of phlite_grpph |
| `GrpphRun.v` | Facts about the runs of phlite_grpph/src/lib.rs |
| `Involution.v` | Dropping positive columns does not change the pairs of the others |
| `GrpphInvolution.v` | The involution step of phlite_grpph/src/lib.rs 145-197 |
| `PropGrpphRun.v` | Property theorems C50-C51: the functions exported to Python by phlite_grpph |
| `SpecWeighted.v` | Specification of weighted digraphs: walks, shortest-path filtrations, weak components |
| `RepBasis.v` | Any family of cycles with the right leading cells, each bounding when its bar dies, is a persistent basis |
| `PathBetti.v` | Cycles and boundaries of the listed cells are the cycles and boundaries of path homology |
| `GrpphReps.v` | The representatives of the bars of dimension 1 form a basis of persistent path homology |
| `ShortestPaths.v` | A reference shortest-path function (Bellman - Ford), to show that the contract of [shortest_path_library] can be met |
| `Weighted.v` | Grounded path homology of a shortest-path filtration: new edges never create homology |
| `WeightedCone.v` | Digraphs with a vertex joined to every other one: the path homology in dimension 1 is that of the loops |
| `PropPathHomology.v` | Property theorems C55 and C56: path homology from its definition |
| `PropReps.v` | Property theorem C61: what the representatives returned by [grpph_with_involution] are |
| `WeightedRun.v` | Runs of the Python functions on weighted digraphs: the shortest-path filtration, and what its Betti numbers say about the bars that are returned |
| `PropWeighted.v` | Property theorems C57 - C60 and C62: the Python functions on weighted digraphs |
| `PropGrpphExamples.v` | Property theorem C63: the assertions of phlite_grpph/examples/example.py for every number of vertices, and runs that meet the hypotheses of C57 - C63 |
| `PropGrpphDemo.v` | Property theorem C65: the demonstration program of phlite_grpph never fails its assertions |
| `SpecPH.v` | Specification of persistent homology over a field: the filtered chain complex, cycles and boundaries at a time, bases of the image of H_n(K_s) -> H_n(K_t), and the bars of a diagram that are alive |
| `Persistence.v` | The pairs of a graded filtered complex decompose its persistent homology into intervals |
| `BettiUnique.v` | The dimension of the image of H_n(K_s) in H_n(K_t) is well defined: two bases have the same length |
| `PropPersistence.v` | Property theorems C52-C53: the diagrams are the persistence barcodes, with representative cycles read off the returned matrices |
| `RipsPersistence.v` | Lemmas for C54: the Rips boundary matrix as a filtered complex, its pairs, and changing the list of cells away from the degrees in play |
| `PropRipsPersistence.v` | Property theorems C54: the diagram of the Rips cohomology pipeline is the persistent homology of the Vietoris-Rips filtration in dimensions up to [max_dim] |
| `PropRipsCli.v` | Property theorems C64: what the Rips command-line program prints |
| `CycleDeath.v` | The directed cycle: distances, and the time at which it becomes a boundary |
| `PropCycle.v` | Property theorem C66: the exact diagram of the directed cycle |
| `BarsUnique.v` | Bars of positive length are determined by the numbers of bars alive |
| `Relabel.v` | Relabelling the vertices of a filtered digraph does not change its Betti numbers |
| `PropRelabel.v` | Property theorem C67: grpph depends on the weighted digraph only |
| `BettiMaps.v` | Persistent Betti numbers under a signed permutation of the cells, and their monotonicity under interleaved filtrations |
| `RipsSwap.v` | Lemmas for C68: exchanging two neighbouring vertices does not change the persistent Betti numbers of the Rips complex |
| `PropRipsOrder.v` | Property theorems C68: the bars of a Vietoris-Rips filtration do not depend on the order of the points |
| `PropStability.v` | Property theorems C69: the bars are stable when the input is perturbed |
| `PropRipsHomology.v` | Property theorems C70: reducing the Rips boundary matrix, by either algorithm, computes the persistent homology of the skeleton |
| `PropRipsCounts.v` | Property theorems C71: how many pairings and essential cells a Rips run reports, in each dimension |
| `PropRipsComponents.v` | Property theorems C72: the bars of dimension 0 count connected components |
| `RipsCircle.v` | The persistent homology of the Vietoris-Rips filtration of [n] points equally spaced on a circle, in degree 1 |
| `PropRipsCircle.v` | Property theorems C73: what the program prints is the barcode of the Vietoris-Rips filtration, whoever computed that barcode; and for the input of the README's example, points equally spaced on a circle, the barcode is this |
| `PropRipsInput.v` | Property theorems C74, C75: which tables of numbers the Rips program is right about, and what of them it depends on |
| `ClearingTotal.v` | The clearing algorithm needs no order on its basis to return: termination and absence of panics without the hypothesis that the blocks are listed in row order, and what is then still true of the diagram |
| `RipsInput.v` | Model of phlite_rips/src/main.rs 18-43: how the command-line program reads its input, and the whole of [main] |
| `SpecInput.v` | Specification of the input of the Rips program: which texts describe which table, and which dimension is asked for |
| `PropRipsCsv.v` | Property theorems C76, C77: on which inputs the Rips program returns, and that the clearing reduction returns on any basis order |
| `ClearingOrder.v` | The clearing algorithm with the dimensions visited in any order: it returns, its pairs are the persistence pairs, and which positive elements it reports as essential |
| `PropClearingOrder.v` | Property theorem C78: the clearing algorithm with the dimensions visited in any order |
| `ClearingDet.v` | The clearing algorithm returns literally the same table of columns and the same diagram for two presentations of the same matrix |
| `PropClearingDet.v` | Property theorem C79: the clearing algorithm depends on the matrix only |
| `GrpphPanic.v` | Edges with a vertex that does not exist: the reduction of phlite_grpph panics |
| `PropGrpphPanic.v` | Property theorems C80: edges that mention a vertex that does not exist |
| `Machine.v` | The columns, products and reductions of phlite run with the arithmetic of the machine |
| `MachineSim.v` | Runs with machine arithmetic against runs over an ideal field |
| `MachineRef.v` | If every coefficient operation of one machine is matched by another, so are the reductions |
| `PropMachine.v` | Property theorems C81-C82: the reductions with the arithmetic of the machine |
| `StdHeap.v` | The algorithm of [std::collections::BinaryHeap] (library/alloc/src/collections/binary_heap/mod.rs: [push], [pop], [peek], [sift_up], [sift_down_to_bottom]; rust 1.60 and later) as an instance of the heap contract of [Columns.v] |
| `PropStdHeap.v` | Property theorem C83: the columns on the algorithm of [std::collections::BinaryHeap] |
| `CachedRun.v` | Iterating lazily over a [WithCachedCols] and running the reductions on one: the columns of the wrapped matrix are asked for in the middle of other iterations, and each open iterator keeps the cache borrowed |
| `CachedFacts.v` | Lazy iteration over a cached matrix: what it returns, which columns it requests, when it panics |
| `CachedReduce.v` | The reductions run on a cached matrix: same result, each column computed at most once |
| `PropCached.v` | Property theorems C84-C86: lazy products and the reductions over a cached matrix |
| `BettiFactor.v` | If the homology of one filtered complex between two times factors through that of another, its persistent Betti number is not larger |
| `RipsRepeat.v` | Lemmas for C87: a repeated point does not change the persistent Betti numbers of the Rips complex |
| `RipsCover.v` | Lemmas for C87 and C88: the persistent Betti numbers of the Rips complex of a list of points, some of them perhaps repeated, are those of the set of these points |
| `PropRipsRepeat.v` | Property theorems C87 and C88: repeating points of a Rips input, and comparing two inputs with different numbers of points |
| `ModelTests.v` | The repository's own unit tests, replayed on the model (not proofs of anything, a check that the model computes what the code computes) |
| `RipsBars.v` | Lemmas for C89 and C90: the bars of a Rips filtration as lists of values, and how they change when the distances are sent through a weakly monotone function |
| `SpecBottleneck.v` | Specification for C90: partial matchings between two lists of bars, and the bottleneck distance (nothing here refers to the code) |
| `Matching.v` | Partial matchings between two lists of bars, for C90 |
| `PropBottleneck.v` | Property theorems C89 and C90: the bars of a Rips input when the distances are sent through a monotone function, and when they are perturbed |
| `PropGrpphStability.v` | Property theorem C91: the diagram of grpph under a perturbation of the weights, bar by bar |
| `Float64.v` | Double-precision numbers: the type [NotNan<f64>] of the repository as an [ordT], with IEEE 754 addition and subtraction as formalised by Flocq |
| `PropArithmetics.v` | Property theorem C92: the diagrams of grpph in two arithmetics (in two ordered types, with two additions), compared bar by bar |
| `DoubleWalks.v` | Walk lengths computed with doubles and with real numbers |
| `PropDouble.v` | Property theorems C93 and C94: grpph on doubles against the exact diagram over the real numbers |
| `PropDoubleRips.v` | Property theorems C95 and C96: the Rips program on doubles |
| `Dijkstra.v` | petgraph 0.6.5's [dijkstra] (called at phlite_grpph/src/lib.rs 40 with [goal = None]), and a proof that it meets the contract [shortest_path_library] |
| `PropDijkstra.v` | Property theorems C97 and C98: petgraph's Dijkstra meets the contract used by grpph |
| `RipsCone.v` | Lemmas for C100: a point within distance [t] of all others makes the complex at [t] a cone |
| `PropEnclosing.v` | C100: the enclosing radius |
| `SpanTree.v` | Lemmas for C101: components and edges of graphs, minimum spanning trees (Kruskal) |
| `PropSpanTree.v` | C101: the dimension-0 bars of the Rips complex are the edge lengths of a minimum spanning tree (single linkage) |
| `PropSpanTotal.v` | C101, second part: spanning trees of least total length |
| `PropEuler.v` | C102: simplices at each level are counted by bars; the Euler characteristic |
| `RawGrpph.v` | grpph on raw doubles (`f64`: NaN, both zeros and both infinities): the edge filter, petgraph's dijkstra and the conversion to [NotNan] before the filtration is built |
| `PropRawGrpph.v` | Property theorems C103: grpph on raw doubles - NaN, -0.0 and infinite weights |
| `SplitBetti.v` | Direct sums: if cycles and boundaries split along a partition of the coordinates, dimensions of quotients add |
| `DisjointPaths.v` | Path homology of a filtered digraph whose vertices fall into two parts with no edge between them |
| `PropDisjoint.v` | Property theorems C104: grpph on a disjoint union of digraphs |
| `PropMaxDim.v` | Property theorem C105: a larger maximal dimension adds bars and changes none |
| `PropFieldChange.v` | Property theorems C106, C107: which Rips bars depend on the field |
| `ClusterBetti.v` | Lemmas for C108: isomorphic filtered complexes, complexes cut off at a time, direct sums of complexes |
| `RipsClusters.v` | Lemmas for C108: below the distance between two groups of points the Rips complex is the disjoint union of those of the groups |
| `PropClusters.v` | C108: groups of points |
| `PropQRelease.v` | C109: what the arithmetic of [Q] computes in a release build, where it never checks for overflow |
| `Reversal.v` | Reversing every edge of a filtered digraph does not change its path homology |
| `PropReversal.v` | Property theorem C110: reversing every edge of the digraph does not change the bars of grpph |
| `PropScale.v` | Property theorem C111: changing the unit of the weights changes the unit of the bars of grpph and nothing else |
| `PropDistances.v` | Property theorem C112: grpph depends on the given edges and the shortest-path lengths only; edges no shorter than a detour count as ground edges only |
| `PropGap.v` | C113: two groups of points further apart than they are wide: the bars of dimension 0 are those of the groups and one more, which ends at the distance between the groups |
| `PropRankBound.v` | C59, second part: with weights that may be zero the circuit rank is an upper bound |
| `WedgePaths.v` | Path homology of a filtered digraph made of two parts that share one vertex |
| `PropWedge.v` | C114: grpph on a digraph made of two digraphs that share one vertex |
| `PropBridge.v` | C114, second part: bridges, and the same on doubles with Dijkstra's algorithm |
| `Assumptions.v` | [Print Assumptions] for every property theorem; written by manifest.py |

## Properties

Every property is expressed in the model. `file`: where the theorems are stated.

| id | title | theorems | file | proof |
|---|---|---|---|---|
| C01 | Z2 is the two-element field | `C01_Z2` | PropFields.v | finite case analysis; `field_theory` of the operations lifted to `option` |
| C02 | Z3, Z5, Z7, Z11, Z13 are the prime fields and never panic | `C02_ZP_operations`, `C02_ZP_closed`, `C02_ZP_field` | PropFields.v | the operations on residues are related to `Z` modulo P for all pairs of residues; primality by computation on the modulus |
| C03 | ZP<P> with an unsuitable P fails exactly as documented | `C03_panics_iff`, `C03_unsuitable`, `C03_suitable` | PropFields.v | the inverse loop is characterised for every modulus: panics iff no inverse exists or P is out of range |
| C04 | Q arithmetic is exact rational arithmetic in lowest terms when nothing overflows | `C04_Q_exact`, `C04_Q_small`, `C04_Q_eq`, `C04_Q_field` | PropFields.v | machine Q refines stdlib `Qc` whenever intermediate products are in range |
| C05 | With overflow checks Q panics or is exact, as long as magnitudes stay below 2^63; beyond, it can be silently wrong | `C05_Q_panics_or_exact`, `C05_Q_silent_wrong` | PropFields.v | exact description under overflow checks; a concrete input at 2^63 refutes the unrestricted claim |
| C06 | pop_pivot returns the leading non-zero term and removes exactly it | `C06_pop_pivot` | PropColumns.v | denotation of a heap = coefficient sum; induction on the number of entries |
| C07 | drain_sorted / to_sorted_vec produce the canonical form of a column | `C07_drain_sorted`, `C07_canonical_unique` | PropColumns.v | iterated C06; canonical form unique by leading terms |
| C08 | clone_pivot is non-destructive and makes peek_pivot reliable | `C08_clone_pivot` | PropColumns.v | pivot is pushed back, denotation unchanged |
| C09 | A column depends only on the sum of what was added | `C09_history`, `C09_representation_independent`, `C09_added` | PropColumns.v | invariant over arbitrary histories of calls; two histories with equal sums are observationally equal |
| C10 | ColumnEntry ordering is a total order compatible with equality | `C10_entry_order`, `C10_eq_compatible`, `C10_incoherent_disagree`, `C10_scale` | PropColumns.v | order derived from filtration then row; coherence hypothesis stated and shown necessary |
| C11 | product is the matrix product | `C11_product`, `C11_product_filtration`, `C11_product_panics`, `C11_product_basis` | PropMatrices.v | sum over the inner column; filtration and basis forwarded; panics characterised |
| C12 | sum is the matrix sum | `C12_sum` | PropMatrices.v | concatenation of columns = sum of coefficients |
| C13 | consolidate preserves the matrix and removes duplicates | `C13_consolidate`, `C13_consolidate_passes`, `C13_consolidate_filtered` | PropMatrices.v | consolidation = canonical form of the column |
| C14 | eq_on_col decides equality of columns | `C14_eq_on_col` | PropMatrices.v | equality of canonical forms |
| C15 | reverse and unreverse are inverse, and reverse flips the order | `C15_reverse_column`, `C15_reverse_leading`, `C15_unreverse_reverse`, `C15_reverse_unreverse`, `C15_reverse_basis`, `C15_unreverse_basis`, `C15_basis_roundtrip`, `C15_split`, `C15_split_panics` | PropMatrices.v | order reversal, both composites identity, bases reversed, splits swap; panics out of range |
| C16 | Adaptors forward columns, filtrations and bases unchanged | `C16_columns`, `C16_filtrations`, `C16_bases`, `C16_index` | PropMatrices.v | function-by-function unfolding of the adaptor model |
| C17 | column_with_filtration is coherent with column and filtration_value through every adaptor | `C17_adaptors`, `C17_with_filtration`, `C17_reverse`, `C17_unreverse`, `C17_product`, `C17_coherent_at` | PropMatrices.v | coherence preserved by each adaptor, `with_filtration` establishes it |
| C18 | cache_cols is transparent | `C18_cache_transparent` | PropCache.v | state machine with cache and live borrows; invariant over histories |
| C19 | cache_cols is not re-entrant: asking for a new column while an iterator is alive panics | `C19_cache_reentrant_panics`, `C19_cached_square_panics` | PropCache.v | reachable history that panics; exact condition |
| C20 | construct_reverse_lookup inverts element | `C20_vec_basis`, `C20_reverse_lookup` | PropMatrices.v | index table induction |
| C21 | Concrete matrices return the stored columns | `C21_vecvec`, `C21_mapvec` | PropMatrices.v | unfolding + lookup lemmas |
| C22 | standard_algo terminates without panicking | `C22_standard_algo_terminates` | PropStandard.v | pivot strictly decreases in a well-founded order on the basis; fuel bound exhibited |
| C23 | V is upper unitriangular | `C23_V_unitriangular` | PropStandard.v | loop invariant on V |
| C24 | R = D V is reduced | `C24_R_reduced` | PropStandard.v | loop invariant den r = D (den v), pivots distinct |
| C25 | Persistence pairs are intrinsic | `C25_pairs_intrinsic`, `C25_any_decomposition` | PropStandard.v | rank-free uniqueness of pairs via leading terms of combinations |
| C26 | read_off_diagram lists each pivot pair and each unpaired zero column | `C26_read_off_diagram`, `C26_essential_intrinsic`, `C26_essential_intrinsic_blocks` | PropStandard.v | traversal invariant |
| C27 | With D D = 0 the diagram partitions the basis | `C27_partition`, `C27_diagram_partition` | PropStandard.v | zero columns and pivots partition when D D = 0 |
| C28 | A wrong reverse_order corrupts the essential set only | `C28_wrong_direction` | PropStandard.v | exact description of the wrong run |
| C29 | Reduction results depend only on the matrix | `C29_presentation_independent`, `C29_standard_algo` | PropStandard.v | two runs in lock-step on equal denotations |
| C30 | The clearing algorithm terminates without panicking | `C30_clearing_terminates` | PropClearing.v | as C22 per dimension, with cleared columns |
| C31 | Clearing yields a valid R = D V decomposition | `C31_clearing_decomposition` | PropClearing.v | invariant over dimensions |
| C32 | Clearing and the standard algorithm give the same diagram | `C32_clearing_intrinsic`, `C32_clearing_agrees_with_standard` | PropClearing.v | pairs are the intrinsic ones, C25 |
| C33 | col_is_cycle is correct | `C33_col_is_cycle` | PropClearing.v | boundary of a column is zero iff every coefficient cancels |
| C34 | Homology and cohomology give the same pairs | `C34_duality_intrinsic`, `C34_standard_algo_duality`, `C34_standard_vs_clearing_duality` | PropDuality.v | certificates: a chain and a cochain witnessing the same pair |
| C35 | RipsIndex encodes simplices faithfully | `C35_index_roundtrip`, `C35_index_injective`, `C35_none_iff_empty` | PropRips.v | place-value digits |
| C36 | RipsIndex overflow | `C36_overflow_exact`, `C36_overflow_dimension`, `C36_wrapping`, `C36_wrapping_collision` | PropRips.v | digits beyond the machine word; both build profiles |
| C37 | build_rips_bases enumerates every simplex once, in filtration order | `C37_bases_enumerate`, `C37_bases_diameter` | PropRips.v | enumeration induction, sorting |
| C38 | Which build_rips_bases calls return | `C38_build_rips_bases_returns_iff`, `C38_max_dim_zero_panics` | PropRips.v | exact condition for returning |
| C39 | Multi-dimensional bases are the concatenation of their dimensions | `C39_multi_basis_concatenates`, `C39_rips_basis` | PropRips.v | concatenation of bases |
| C40 | The Rips boundary is the simplicial boundary | `C40_boundary_column`, `C40_boundary_boundary_zero` | PropRips.v | alternating faces, d d = 0 by pairing of terms |
| C41 | The Rips coboundary is the transpose of the boundary | `C41_coboundary_column`, `C41_coboundary_is_transpose`, `C41_coboundary_coboundary_zero` | PropRips.v | adjoint of C40 |
| C42 | The Rips filtration is monotone | `C42_filtration_value_is_diameter`, `C42_boundary_rows_earlier`, `C42_faces_no_later` | PropRips.v | diameter monotone |
| C43 | Rips column_with_filtration: coherent on built matrices, wrong in the override | `C43_built_matrices_coherent`, `C43_override_panics`, `C43_override_exact`, `C43_override_disagrees` | PropRips.v | built matrices go through the default; the override is characterised |
| C44 | End-to-end Rips persistent cohomology | `C44_cohomology_intrinsic`, `C44_agrees_with_standard`, `C44_diagram_shape`, `C44_homology_same_pairs` | PropRipsCohomology.v | contract of clearing for the reversed coboundary + C34 + C39 |
| C45 | Primary bridges are earliest two-paths | `C45_primary_bridges` | PropGrpph.v | fold invariant over bridge candidates |
| C46 | Path-homology coboundary is the transpose of the boundary | `C46_coboundary_column`, `C46_transpose`, `C46_boundary_column` | PropGrpph.v | every generator enumerated once per edge with its coefficient |
| C47 | GrPPH times are coherent | `C47_times_coherent`, `C47_infinite_times_refuted` | PropGrpph.v | times of generators are maxima of path times |
| C48 | GrPPH complexes are chain complexes with monotone filtration | `C48_boundary_squared`, `C48_coboundary_squared`, `C48_cells_listed` | PropGrpph.v | boundary of generators cancels; listings exist |
| C49 | GrPPH basis lists every node and every edge once, sorted | `C49_basis`, `C49_map_table`, `C49_vec_table` | PropGrpph.v | sorting + disjointness |
| C50 | End-to-end GrPPH | `C50_reduce`, `C50_grpph`, `C50_u16_truncation_refuted` | PropGrpphRun.v | contract of clearing for GrPPH + duality; truncation and overflow refutations |
| C51 | Involuted representatives are cycles | `C51_negative_columns_suffice`, `C51_grpph_with_involution` | PropGrpphRun.v | dropping positive columns leaves other pairs unchanged |
| C52 | The diagram of the standard algorithm is the persistence barcode | `C52_diagram_is_barcode`, `C52_diagram_is_barcode_blocks`, `C52_bars_count_persistent_betti` | PropPersistence.v | cycles with the right leading cells form a basis at all pairs of times; dimension unique |
| C53 | The diagram of the clearing algorithm is the persistence barcode | `C53_clearing_diagram_is_barcode` | PropPersistence.v | same, for clearing |
| C54 | The Rips cohomology run computes the persistent homology of the Vietoris-Rips filtration | `C54_rips_barcode`, `C54_rips_bars_count` | PropRipsPersistence.v | C44 + C52 + duality on all simplices |
| C55 | The generating 2-cells are a basis of the boundary-invariant 2-paths | `C55_generators_basis`, `C55_code_cells_basis` | PropPathHomology.v | elimination of 2-paths by primary bridges; independence by private paths |
| C56 | grpph returns the barcode of grounded persistent path homology | `C56_reduce_path_homology`, `C56_grpph_path_homology` | PropPathHomology.v | C55 + C52 |
| C57 | On a weighted digraph grpph returns the barcode of its shortest-path filtration | `C57_weighted_digraph` | PropWeighted.v | shortest-path contract gives a filtered digraph; C56 |
| C58 | Every bar of grpph starts at zero, ends at a distance, and components are counted | `C58_births_and_deaths` | PropWeighted.v | shortest walks are homologous to their edges: surjectivity and stability of Betti numbers; arithmetic on bar counts |
| C59 | The number of bars of dimension 1 is the circuit rank | `C59_circuit_rank_bound`, `C59_circuit_rank` | PropRankBound.v, PropWeighted.v | spanning-forest induction over the edge list |
| C60 | Which cycles never die in a digraph with a root | `C60_essential_cycles` | PropWeighted.v | cone from the root: every edge is homologous to spokes |
| C61 | The representatives of grpph_with_involution are a persistent basis | `C61_representatives` | PropReps.v | involution columns have the right leading edges; C52 |
| C62 | With positive weights representatives run along given edges | `C62_representatives_in_graph` | PropWeighted.v | C61 at time z, where only given edges exist |
| C63 | The assertions of the Python examples hold for every size | `C63_complete_digraph`, `C63_cycle_digraph` | PropGrpphExamples.v | C59 + C60 + C62; a cycle on the directed cycle is constant |
| C64 | What the Rips program prints is the barcode of the Vietoris-Rips complex | `C64_rips_program`, `C64_reported_bars`, `C64_max_dim_zero_panics` | PropRipsCli.v | C44 + C54 per printed line; Pascal enumeration of simplices |
| C65 | The assertions of the GrPPH demonstration program hold for every size | `C65_demo_assertions_hold` | PropGrpphDemo.v | same run as C63; per-dimension lists are a permutation of the printed list |
| C66 | The diagram of the directed cycle is known exactly | `C66_cycle_death` | PropCycle.v | distances on the cycle; filling by two paths at the death time, winding-number cocycle before it |
| C67 | grpph depends on the weighted digraph only | `C67_digraph_determines_bars` | PropRelabel.v | Betti numbers are transported along the renaming; numbers of bars alive determine the bars of positive length (BarsUnique) |
| C68 | Rips bars do not depend on the order of the points | `C68_point_order`, `C68_program_point_order` | PropRipsOrder.v | an adjacent transposition acts on chains as a signed permutation (RipsSwap, BettiMaps); every permutation is a product of them; bars_determined |
| C69 | Bars are stable under perturbation of the input | `C69_rips_stability`, `C69_grpph_stability`, `C69_longer_edges` | PropStability.v | rank of a map factoring through another (kernel of a wide matrix); cycles of a shortest-path filtration are homologous to cycles of given edges |
| C70 | Reducing the Rips boundary matrix computes the persistent homology of the skeleton | `C70_rips_homology` | PropRipsHomology.v | The boundary matrix is shown to be a block complex over the dimensions in decreasing order and to equal the specification's simplicial boundary on every simplex of the skeleton; C32, C52 and C53 then give agreement and the Betti numbers, and chains of degree q and q+1 only see simplices of those degrees, so for q < max_dim the larger complex has the same Betti numbers. |
| C71 | The number of bars in each dimension depends only on the number of points | `C71_cohomology_counts`, `C71_homology_counts` | PropRipsCounts.v | From C44_diagram_shape each simplex of dimension k <= max_dim is the base vertex, the birth of exactly one pair or the death of exactly one pair, so the cells of dimension k are a permutation of the births of dimension k and the deaths of dimension k; induction on k and Pascal's rule give the counts. |
| C72 | Dimension-0 Rips bars count connected components | `C72_components` | PropRipsComponents.v | From any labelling of the components, the classes of one vertex per label form a persistent basis of H_0 in the sense of SpecPH (spanning: along a path consecutive vertices differ by an edge's boundary; independence: the total coefficient on a component vanishes on boundaries); C54_rips_bars_count then identifies its size with the number of bars alive. labels_exist shows that labellings exist. |
| C73 | The Rips program prints the barcode, and on the circle example exactly the expected one | `C73_program_prints_barcode`, `C73_circle` | PropRipsCircle.v | circle_betti1 computes the persistent Betti numbers of degree 1 (arcs are homologous to sums of unit steps; the cycle of all unit steps bounds once a triangle of side ceil(n/3) exists, and before that its winding number, counted on the long edges, is not zero); components_betti gives degree 0; bars_determined (a barcode is determined by the alive counts) turns this into the printed list |
| C74 | Which tables of distances the Rips program is right about | `C74_recorded_times_exact`, `C74_upper_triangle`, `C74_asymmetric_refuted` | PropRipsInput.v | C37's description of the recorded times and of the diameters compared entry by entry; same_run (the diagram is intrinsic, so order-equivalent filtrations give the same pairs); the refutation by evaluation. |
| C75 | The pairs depend only on the order of the distances | `C75_order_type` | PropRipsInput.v | uval_order: the times of simplices are ordered alike; then same_run as in C74. |
| C76 | On which input the Rips command returns | `C76_reads`, `C76_returns_on_wide_tables`, `C76_missing_entry_panics`, `C76_returns_iff` | PropRipsCsv.v | rips_cli models main.rs 18-43; reading is characterised by `describes` and `asks_for` of SpecInput.v; returning by the order-free run of C77 on the Rips blocks (wide_shape); panicking by following the missing entry through the basis enumeration (bases_need: every step either panics or leaves the vertex stack unchanged). |
| C77 | The clearing reduction returns for any order of the basis | `C77_clearing_any_order` | PropRipsCsv.v | build_total (ClearingTotal.v): the loop invariants of the clearing proofs restated without the order of the columns. |
| C78 | The clearing reduction with the dimensions in any order | `C78_any_dimension_order`, `C78_order_does_not_change_pairs`, `C78_wrong_direction` | PropClearingOrder.v | o_build (ClearingOrder.v): loop invariant over the blocks visited so far that does not assume that a Cleared marker is written before the column is met; graded_blocks (SpecMat.v) is the contract without any order of the dimensions. |
| C79 | The clearing algorithm depends on the matrix only | `C79_clearing_presentation_independent` | PropClearingDet.v | both runs satisfy the C78 invariant for their own matrix; the table is the same after every step because the reduction loop only depends on the dense columns (gen_loop_sim) and the drained V column is sorted, hence determined by its dense content |
| C80 | grpph returns exactly when all edges join known vertices | `C80_unknown_vertex_panics`, `C80_known_vertices_return` | PropGrpphPanic.v | the columns before the first edge with an unknown vertex reduce as in C32 on the in-range part of the digraph (total_fold on a truncated block); that column then panics, since neither a pivot nor a clearing entry can be an unknown edge; known vertices: C50/C51 on the truncated edge list |
| C81 | Reductions over ZP never panic in the arithmetic | `C81_ZP_standard`, `C81_ZP_clearing` | PropMachine.v | Machine.v models the columns, products and both reductions over coefficient operations that may panic; MachineRef.v proves a simulation along any map of coefficients commuting with the operations (heaps carried along by relabelling); MachineSim.v shows that over a field the machine model is the model of C25/C32; ZP on u8 refines ZP_coeff by C02 |
| C82 | Reductions over Q are right or stopped | `C82_Q_standard`, `C82_Q_clearing`, `C82_release_wrong_refuted` | PropMachine.v | the simulation of MachineRef.v twice: from checked arithmetic to either build profile (an operation that does not overflow does the same in both) and from checked arithmetic to the canonical rationals (exactness as in C05); the wrong release run is computed |
| C83 | Columns and reductions on the BinaryHeap of the standard library | `C83_std_heap_history`, `C83_std_standard`, `C83_std_clearing` | PropStdHeap.v | StdHeap.v models the heap as an array with a hole and proves the heap order and the multiset through sift_up and sink (holed invariant); it is an instance of heaps and of uniform, so C81 applies with no abstract heap |
| C84 | Lazy products over a cached matrix: transparent, or panicking exactly on uncached rows | `C84_cached_product`, `C84_cached_square_exact` | PropCached.v | CachedRun.v models iterators over the cache as they are consumed (the outer one stays open while the inner columns are requested); CachedFacts.v proves the exact outcome for every cache state reachable by a client history |
| C85 | The standard algorithm on a cached boundary: same result, each column computed exactly once | `C85_cached_standard` | PropCached.v | the reduction threaded through the cache state (CachedRun.v) is simulated against the model of standard.rs; the invariant of C22-C26 shows that every column of V only involves cells whose column is already cached |
| C86 | Clearing on a cached boundary: same result, and a cleared cell's boundary column is never computed | `C86_cached_clearing` | PropCached.v | CachedReduce.v: with the invariant of C30-C33, a column used for reducing is never a cleared one, so all its cells are cached; the log of computed columns is tracked exactly; the cleared column of R contains the cleared cell itself, which is never cached, under an open iterator |
| C87 | Repeating points does not change the bars | `C87_repeated_points`, `C87_program_repeated_points` | PropRipsRepeat.v | chain maps between the complexes with and without the last vertex repeated, homotopic to the identity (BettiFactor.v, RipsRepeat.v); induction on the number of repetitions (RipsCover.v); bars determined by the ranks (C68). |
| C88 | Stability under correspondences between inputs of different sizes | `C88_correspondence_stability`, `C88_distortion` | PropRipsRepeat.v | both sides pulled back to the list of related pairs (C87), then the interleaving of C69. |
| C89 | Weakly monotone functions of the distances act on the bars | `C89_monotone_distances` | PropBottleneck.v | bars of positive length are determined by the persistent Betti numbers (BarsUnique), and the sublevel complexes of g(d) are sublevel complexes of d: the largest entry whose image is at most s serves as threshold (RipsBars.mono_bars).  `C89_monotone_distances`. |
| C90 | Bottleneck (Gromov-Hausdorff) stability of the Rips diagram | `C90_bottleneck_stability`, `C90_program_bottleneck` | PropBottleneck.v | both diagrams of two tables without inverted distances are images of one diagram over pairs of values (C89's lemma for the two projections); raising each distance by unit steps to the maximum of the two tables gives a path of such steps, whose matchings compose (Matching.v); correspondences are reduced to tables of equal size by C87's covers.  `C90_bottleneck_stability`, `C90_program_bottleneck`.  Specification in SpecBottleneck.v. |
| C91 | grpph moves bar by bar when the weights move | `C91_grpph_stability`, `C91_scaled_weights` | PropGrpphStability.v | C69 in both directions interleaves the counting functions of the deaths; births are all zero (C58) and the numbers agree at time zero because no walk between distinct vertices has length zero; two lists with interleaved counting functions are matched by repeatedly taking the maxima (counts_match).  `C91_grpph_stability`, `C91_scaled_weights`. |
| C92 | grpph in two arithmetics gives the same bars up to the arithmetics' error | `C92_two_arithmetics` | PropArithmetics.v | As C91, for two ordered types: for every level of one filtration a level of the other is built that bounds the counterparts of all shorter walks (finitely many pairs of vertices), C69 interleaves the counting functions, and counts_match2 matches by maxima.  `C92_two_arithmetics`. |
| C93 | grpph on doubles is the exact diagram up to rounding | `C93_double_grpph` | PropDouble.v | Flocq's relative error bound for IEEE addition (no underflow error) along walks without repeated vertices; no overflow because such walks have fewer than 65536 edges; then C92 against the run over the reals, whose bars C57 identifies with the exact filtration.  `C93_double_grpph`. |
| C94 | grpph on doubles is exact for integer-like weights | `C94_exact_doubles` | PropDouble.v | Sums of at most n-1 such weights are representable, hence every addition is exact; then as C93 with error factor 1.  `C94_exact_doubles`. |
| C95 | The Rips program on doubles prints the bars longer than 0.01 | `C95_rips_program_doubles` | PropDoubleRips.v | C73 for the IEEE instance, with 0.01 the nearest double and monotonicity of rounding on both sides of it.  `C95_rips_program_doubles`. |
| C96 | The output of the Rips program on doubles is stable | `C96_rips_program_stability` | PropDoubleRips.v | C90 with doubles read as integers times 2^-1074 (all doubles are such multiples) and delta rounded down to such a multiple; the cut is C95's.  `C96_rips_program_stability`. |
| C97 | The shortest-path step of grpph is correct | `C97_dijkstra`, `C97_std_queue` | PropDijkstra.v | petgraph 0.6.5's loop is modelled with its score map, visited set and queue (stale entries included); the invariant is that visited vertices carry shortest lengths and that the scores of the others are queued; the queue length plus the number of edges leaving unvisited vertices bounds the steps.  `C97_dijkstra`; `C97_std_queue` (the array heap of C83 with petgraph's reversed order is such a queue). |
| C98 | The shortest-path step of grpph finds the reachable vertices whatever the weights | `C98_any_weights` | PropDijkstra.v | A weaker invariant that never compares lengths.  `C98_any_weights`. |
| C99 | grpph on doubles, from the edge list to the diagram | `C99_grpph_dijkstra` | PropDijkstra.v | C93 with C97 for IEEE addition.  `C99_grpph_dijkstra`. |
| C100 | No Rips bar outlives the enclosing radius, and distances beyond it do not matter | `C100_enclosing_radius`, `C100_program`, `C100_truncation` | PropEnclosing.v | RipsCone.v builds the chain homotopy that cones every simplex to the apex (after reordering the points so the apex is last), so persistent Betti numbers past r vanish in degree >= 1 and are 1 in degree 0 (by the component count of C72); counting bars (C54) then forbids a bar crossing r. The capped matrix is the image under a weakly monotone map, so C89's transport of bars applies. |
| C101 | Dimension-0 Rips bars are the edges of a minimum spanning tree | `C101_least_total_length`, `C101_spanning_tree`, `C101_minimum_spanning_tree`, `C101_program` | PropSpanTotal.v, PropSpanTree.v | Components are counted by C72; SpanTree.v proves that one edge joins at most two components (so any connected graph has at least as many edges above each level as there are components to join) and that Kruskal's tree has exactly the components of every level. Equal counts above every level give equal multisets. |
| C102 | Bars count the simplices of every level; Euler characteristic | `C102_level_counts`, `C102_euler_characteristic` | PropEuler.v | C44's partition of the simplices into births, deaths and the essential vertex is a permutation of the list of simplices; the counts follow by filtering it. A pair cancels in the alternating sum unless t separates its birth and death. |
| C103 | GrPPH on raw doubles: NaN and -0.0 weights | `C103_raw_doubles`, `C103_raw_bars` | PropRawGrpph.v | Model of petgraph's dijkstra over raw doubles (IEEE comparisons, MinScored's treatment of NaN, the filter t < INFINITY, NotNan::new(..).unwrap()); simulation between the raw run and the run over NotNan weights: scores start at +0.0 and sums of proper doubles with finite weights are never NaN or -0.0, so raw scores are exactly the doubles inside the NotNan scores. Then C99. |
| C104 | GrPPH of a disjoint union is the union of the diagrams | `C104_disjoint_union`, `C104_isolated_vertices` | PropDisjoint.v | Cycles, boundaries and allowed 2-paths split along the vertex partition because no walk crosses it (DisjointPaths.v); generic lemma that persistent Betti numbers of a split are sums (SplitBetti.v); vertices without edges change no chain; then uniqueness of bars from Betti numbers (BarsUnique.v) and component counts (C58) in dimension 0. |
| C105 | Raising the Rips program's maximal dimension adds bars and changes none | `C105_max_dim_pairs`, `C105_max_dim_program` | PropMaxDim.v | Pairs are intrinsic (C44) for any order of the basis that sorts each dimension; choose an order of the larger reversed basis that starts with the smaller one, and show that the intrinsic pairing only depends on the basis up to the column. Then the lines printed as images of the pairs. |
| C106 | Dimension-0 Rips bars are the same over every field; higher bars are not | `C106_dimension_0_any_field`, `C106_field_matters` | PropFieldChange.v | First half: both multisets are the edges of a minimum spanning tree (C101). Second half: the two runs of the model computed by the kernel. |
| C107 | Extending the coefficient field changes no diagram | `C107_standard`, `C107_clearing`, `C107_rips` | PropFieldChange.v | A decomposition R = DV over the small field is mapped by the embedding to one over the large field with the same leading rows; by C25 any decomposition determines the intrinsic pairs, to which C25, C26, C32 and C44 relate the programs' diagrams. Example with the field of four elements. |
| C108 | Groups of points far apart: the Rips bars of the union are those of the groups | `C108_groups`, `C108_far_groups`, `C108_program` | PropClusters.v | Below g no simplex meets both groups, so the complex cut off at t < g is isomorphic, by renumbering vertices, to the direct sum of those of the groups; persistent Betti numbers add over direct sums, and bars cut at g are determined by the numbers of bars alive from s to t for s <= t < g (ClusterBetti.v, RipsClusters.v). With C54 and C64 this is a statement about the runs. |
| C109 | Exactly what Q arithmetic computes in a release build | `C109_release_product`, `C109_release_product_lowest`, `C109_release_sum`, `C109_release_inverses`, `C109_debug_release`, `C109_zero_denominator` | PropQRelease.v | The words are unfolded to residues modulo 2^64; reduce is analysed by the size of the gcd (below, equal to, above 2^63). Examples: (2^32)^2 is stored as 0/1 and (1/2^32)^2 as 1/0, after which an addition divides by zero. |
| C110 | Reversing every edge does not change the bars of grpph | `C110_reversal`, `C110_reversal_doubles`, `C110_reversal_exact_doubles` | PropReversal.v | Reversing chains (e(x,y) to e(y,x), u(a,b,c) to u(c,b,a)) maps invariant 2-paths, cycles and boundaries of one filtration to those of the other (Reversal.v); shortest walks reverse; C57 and the uniqueness of bars from the Betti numbers finish. On doubles both runs are compared with the exact real diagram by C99 and C94. Example: a digraph with a source which is not isomorphic to its reversal. |
| C111 | Changing the unit of the weights changes the unit of the grpph bars and nothing else | `C111_change_of_units`, `C111_double_units` | PropScale.v | C92 with an exact comparison relation between the two arithmetics. On doubles rounding commutes with multiplication by 2^k: sums in the normal range by shifting exponents, sums in the subnormal range because they are exact; walks without repeated vertices are transported edge by edge. Examples: weights 0.1, 0.2, 1.0 doubled, and integers tripled. |
| C112 | grpph depends only on which pairs carry an edge and on the shortest lengths | `C112_distances`, `C112_detours`, `C112_parallel`, `C112_parallel_doubles` | PropDistances.v | C57 characterises both results by the Betti numbers of the same filtration and C55's uniqueness of bars gives equal multisets; shortest lengths are unchanged because each walk through a replaced edge is matched by one along the kept edges. Example: a chord of weight 9 or infinity over a path of length 3, and its removal, which changes the bars. |
| C113 | The gap between two groups of points is exactly one more Rips bar of dimension 0 | `C113_gap`, `C113_program` | PropGap.v | Before g the Betti numbers of the union are the sums (C108); from g on there is one component (C72); uniqueness of bars. Example: the two squares of C108. |
| C114 | GrPPH of two digraphs that share one vertex is the union of their diagrams | `C114_bridge`, `C114_doubles`, `C114_shared_vertex`, `C114_attached_forest` | PropBridge.v, PropWedge.v | Walks retract onto a part, so the filtration of a part is the restriction of the whole; a shortcut between the parts is the third side of a directed triangle through v, so cycles split up to boundaries; collapsing the other part to v is a chain map on boundary-invariant 2-paths, so boundaries split too; dimensions add; uniqueness of bars. Components: adding the edges of the second part one at a time. |

## Print Assumptions

`Print Assumptions` is run in `Assumptions.v` on the following theorems and answers "Closed under the global context" (no axioms) for each, except for `C93_double_grpph`, `C94_exact_doubles`, `C95_rips_program_doubles`, `C96_rips_program_stability`, `C99_grpph_dijkstra`, `C103_raw_doubles`, `C103_raw_bars`, `C110_reversal_doubles`, `C110_reversal_exact_doubles`, `C111_double_units`, `C112_parallel_doubles`, `C114_doubles`, where it lists `ClassicalDedekindReals.sig_forall_dec`, `ClassicalDedekindReals.sig_not_dec`, `FunctionalExtensionality.functional_extensionality_dep` and `Classical_Prop.classic`, and for `C101_least_total_length`, where it lists the first and the third of these:

`C01_Z2`, `C02_ZP_closed`, `C02_ZP_field`, `C02_ZP_operations`, `C03_panics_iff`, `C03_suitable`, `C03_unsuitable`, `C04_Q_eq`, `C04_Q_exact`, `C04_Q_field`, `C04_Q_small`, `C05_Q_panics_or_exact`, `C05_Q_silent_wrong`, `C06_pop_pivot`, `C07_canonical_unique`, `C07_drain_sorted`, `C08_clone_pivot`, `C09_added`, `C09_history`, `C09_representation_independent`, `C100_enclosing_radius`, `C100_program`, `C100_truncation`, `C101_least_total_length`, `C101_minimum_spanning_tree`, `C101_program`, `C101_spanning_tree`, `C102_euler_characteristic`, `C102_level_counts`, `C103_raw_bars`, `C103_raw_doubles`, `C104_disjoint_union`, `C104_isolated_vertices`, `C105_max_dim_pairs`, `C105_max_dim_program`, `C106_dimension_0_any_field`, `C106_field_matters`, `C107_clearing`, `C107_rips`, `C107_standard`, `C108_far_groups`, `C108_groups`, `C108_program`, `C109_debug_release`, `C109_release_inverses`, `C109_release_product`, `C109_release_product_lowest`, `C109_release_sum`, `C109_zero_denominator`, `C10_entry_order`, `C10_eq_compatible`, `C10_incoherent_disagree`, `C10_scale`, `C110_reversal`, `C110_reversal_doubles`, `C110_reversal_exact_doubles`, `C111_change_of_units`, `C111_double_units`, `C112_detours`, `C112_distances`, `C112_parallel`, `C112_parallel_doubles`, `C113_gap`, `C113_program`, `C114_attached_forest`, `C114_bridge`, `C114_doubles`, `C114_shared_vertex`, `C11_product`, `C11_product_basis`, `C11_product_filtration`, `C11_product_panics`, `C12_sum`, `C13_consolidate`, `C13_consolidate_filtered`, `C13_consolidate_passes`, `C14_eq_on_col`, `C15_basis_roundtrip`, `C15_reverse_basis`, `C15_reverse_column`, `C15_reverse_leading`, `C15_reverse_unreverse`, `C15_split`, `C15_split_panics`, `C15_unreverse_basis`, `C15_unreverse_reverse`, `C16_bases`, `C16_columns`, `C16_filtrations`, `C16_index`, `C17_adaptors`, `C17_coherent_at`, `C17_product`, `C17_reverse`, `C17_unreverse`, `C17_with_filtration`, `C18_cache_transparent`, `C19_cache_reentrant_panics`, `C19_cached_square_panics`, `C20_reverse_lookup`, `C20_vec_basis`, `C21_mapvec`, `C21_vecvec`, `C22_standard_algo_terminates`, `C23_V_unitriangular`, `C24_R_reduced`, `C25_any_decomposition`, `C25_pairs_intrinsic`, `C26_essential_intrinsic`, `C26_essential_intrinsic_blocks`, `C26_read_off_diagram`, `C27_diagram_partition`, `C27_partition`, `C28_wrong_direction`, `C29_presentation_independent`, `C29_standard_algo`, `C30_clearing_terminates`, `C31_clearing_decomposition`, `C32_clearing_agrees_with_standard`, `C32_clearing_intrinsic`, `C33_col_is_cycle`, `C34_duality_intrinsic`, `C34_standard_algo_duality`, `C34_standard_vs_clearing_duality`, `C35_index_injective`, `C35_index_roundtrip`, `C35_none_iff_empty`, `C36_overflow_dimension`, `C36_overflow_exact`, `C36_wrapping`, `C36_wrapping_collision`, `C37_bases_diameter`, `C37_bases_enumerate`, `C38_build_rips_bases_returns_iff`, `C38_max_dim_zero_panics`, `C39_multi_basis_concatenates`, `C39_rips_basis`, `C40_boundary_boundary_zero`, `C40_boundary_column`, `C41_coboundary_coboundary_zero`, `C41_coboundary_column`, `C41_coboundary_is_transpose`, `C42_boundary_rows_earlier`, `C42_faces_no_later`, `C42_filtration_value_is_diameter`, `C43_built_matrices_coherent`, `C43_override_disagrees`, `C43_override_exact`, `C43_override_panics`, `C44_agrees_with_standard`, `C44_cohomology_intrinsic`, `C44_diagram_shape`, `C44_homology_same_pairs`, `C45_primary_bridges`, `C46_boundary_column`, `C46_coboundary_column`, `C46_transpose`, `C47_infinite_times_refuted`, `C47_times_coherent`, `C48_boundary_squared`, `C48_cells_listed`, `C48_coboundary_squared`, `C49_basis`, `C49_map_table`, `C49_vec_table`, `C50_grpph`, `C50_reduce`, `C50_u16_truncation_refuted`, `C51_grpph_with_involution`, `C51_negative_columns_suffice`, `C52_bars_count_persistent_betti`, `C52_diagram_is_barcode`, `C52_diagram_is_barcode_blocks`, `C53_clearing_diagram_is_barcode`, `C54_rips_barcode`, `C54_rips_bars_count`, `C55_code_cells_basis`, `C55_generators_basis`, `C56_grpph_path_homology`, `C56_reduce_path_homology`, `C57_weighted_digraph`, `C58_births_and_deaths`, `C59_circuit_rank`, `C59_circuit_rank_bound`, `C60_essential_cycles`, `C61_representatives`, `C62_representatives_in_graph`, `C63_complete_digraph`, `C63_cycle_digraph`, `C64_max_dim_zero_panics`, `C64_reported_bars`, `C64_rips_program`, `C65_demo_assertions_hold`, `C66_cycle_death`, `C67_digraph_determines_bars`, `C68_point_order`, `C68_program_point_order`, `C69_grpph_stability`, `C69_longer_edges`, `C69_rips_stability`, `C70_rips_homology`, `C71_cohomology_counts`, `C71_homology_counts`, `C72_components`, `C73_circle`, `C73_program_prints_barcode`, `C74_asymmetric_refuted`, `C74_recorded_times_exact`, `C74_upper_triangle`, `C75_order_type`, `C76_missing_entry_panics`, `C76_reads`, `C76_returns_iff`, `C76_returns_on_wide_tables`, `C77_clearing_any_order`, `C78_any_dimension_order`, `C78_order_does_not_change_pairs`, `C78_wrong_direction`, `C79_clearing_presentation_independent`, `C80_known_vertices_return`, `C80_unknown_vertex_panics`, `C81_ZP_clearing`, `C81_ZP_standard`, `C82_Q_clearing`, `C82_Q_standard`, `C82_release_wrong_refuted`, `C83_std_clearing`, `C83_std_heap_history`, `C83_std_standard`, `C84_cached_product`, `C84_cached_square_exact`, `C85_cached_standard`, `C86_cached_clearing`, `C87_program_repeated_points`, `C87_repeated_points`, `C88_correspondence_stability`, `C88_distortion`, `C89_monotone_distances`, `C90_bottleneck_stability`, `C90_program_bottleneck`, `C91_grpph_stability`, `C91_scaled_weights`, `C92_two_arithmetics`, `C93_double_grpph`, `C94_exact_doubles`, `C95_rips_program_doubles`, `C96_rips_program_stability`, `C97_dijkstra`, `C97_std_queue`, `C98_any_weights`, `C99_grpph_dijkstra`.
