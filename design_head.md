# Formal model of phlite in Coq 8.16.1

This file is written by `design.py` (text in `design_head.md`, tables from `properties.jsonl`, `MANIFEST.json` and the
sources). `manifest.py` writes `MANIFEST.json`.

## Method

Model files translate the Rust source function by function; each definition cites the file and lines it models and says
where it simplifies. Specification files (`Spec*.v`) define coefficients, leading rows, triangular and reduced
decompositions, intrinsic persistence pairs, persistent homology, simplices, digraphs, path homology, walks - without
reference to the algorithms. Property theorems (`Prop*.v`) relate the two for all inputs. Examples beside the theorems
instantiate the hypotheses on concrete non-trivial cases. `seeded/LOG.jsonl` records the wrong programs on which the
theorems were tested.

## Modelling decisions

* **Panics** (`unwrap`, `expect`, indexing, `panic!`, checked arithmetic) are the value `Panic` of the `res` monad. Loops that
  are not structurally bounded take fuel and return `NoFuel` when it runs out; the theorems say that for every
  sufficiently large fuel the result is `Ok`, so `NoFuel` is excluded by the statement.
* **Trait contracts.** `BasisElement`/`FiltrationValue` are total orders whose `Equal` is equality (`ordT`). `NotNan<f64>` is
  any such order with a distinguished zero (+0.0 and -0.0 are identified, as `NotNan`'s `Eq` does). Where floating-point
  addition matters (shortest paths) only `nonneg_add` is assumed: `0 + w = w` and sums dominate their summands, which
  rounding respects. `Float64.v` instantiates all of this with IEEE 754 binary64 (Flocq's `binary_float 53 1024`, round to nearest even, one NaN):
  `notnan_ord`, `add64`, `sub64` (C93-C96, C99, C103). There a NaN result (`inf - inf`, which occurs only in the program's comparison with 0.01) is represented by minus
  infinity, which like NaN is not greater than 0.01. `NonZeroCoefficient + Invertible` is `coeffT`: operations on the non-zero elements such that adding
  `None` as 0 gives a field. `Z2`, `ZP` for the provided primes and the ideal rationals are proved to be instances.
* **`BinaryHeap`** is *any* heap satisfying push/pop/peek laws on multisets (`heaps`); theorems quantify over all of them,
  hence over all tie-breakings. Instances are constructed, so the quantification is not vacuous; one of them (`StdHeap.v`, C83) is
  the array algorithm of the Rust standard library.
* **`FxHashMap`/`FxHashSet`** are association lists with `get`/`insert`; results are stated by membership or up to
  permutation, so iteration order does not matter.
* **Iterators** are lists (all are pure and consumed in order); the one stateful iterator, the `RefCell`-backed cached
  column, is a state machine with live borrows.
* **Matrices** are records of functions `column`, `filtration_value`, `column_with_filtration`; the last is a separate field
  because Rust types may override it, while `&M`, `MatrixWithBasis` etc. fall back to the default. Which of them a call
  reaches follows Rust's method resolution: in `standard_algo` and in clearing `boundary.build_bhcol` uses M's own method;
  `product(&boundary, _)` uses the default; `standard_algo_with_diagram` passes `&boundary`, hence the default.
* **Machine integers**: ranges and wrap-around are explicit in `Q`, in `RipsIndex` and in the `u16` casts of GrPPH, under both
  build profiles where they differ. `Machine.v` models columns, products and both reductions again over coefficient operations
  that may panic; C81 and C82 connect those runs to the runs over ideal fields, for heaps that only compare entries
  (`uniform`: relabelling coefficients commutes with the heap operations). Loop counters and vertex numbers are `nat`.
* **Shortest paths** are a function parameter of the model of grpph; theorems C57-C60, C62, C63, C65-C67, C69, C91-C94 assume the contract
  `shortest_path_library` (for every list of non-negatively weighted edges it returns lengths of shortest walks). `Dijkstra.v` models the loop of petgraph 0.6.5's
  `dijkstra` (from its published source, petgraph is not in the repository) and C97 proves that it meets the contract for every priority queue that returns an
  entry of least score (std's `BinaryHeap` on `MinScored` is one) and every order of the adjacency lists; C99 uses it inside grpph. `ShortestPaths.v` proves the contract for a Bellman-Ford
  implementation too.

## What is modelled and what is not

Modelled: `phlite/src/fields.rs`, `columns.rs`, `matrices/{mod,adaptors,combinators,implementors}.rs`,
`reduction/{mod,standard,clearing}.rs`; `phlite_rips/src/{lib,homology,cohomology,main}.rs`;
`phlite_grpph/src/{coboundary,boundary,lib}.rs` and `bin/main.rs`.

Not modelled: `phlite_py` (every ordering and equality method is `todo!()`), `Debug` formatting, text output of the command-line
program, the scanner of the csv crate and the parsing of single numbers (their results are arguments of `rips_cli`), logging, the PyO3 glue, petgraph's graph storage (contract: `adjacency`), ordered-float (contracts above), memory layout and the `unsafe`
pointer casts behind `ReverseBasis`/`UnreverseBasis::deref` (modelled by their effect), integer overflow of loop
counters and vertex numbers other than stated above, `phlite_grpph/src/bin/stub_gen.rs`, performance.

## Trusted base

Coq's kernel (8.16.1, with `vm_compute` used for examples and finite computations); the faithfulness of the hand-written
model to the Rust source (`ModelTests.v` replays every unit test of the repository that asserts something about behaviour, with the asserted
values); the readings in the specification files. No axioms of our own. All theorems but those named next are "Closed under
the global context" (list at the end). Those about doubles (`C93_double_grpph`, `C94_exact_doubles`, `C95_rips_program_doubles`, `C96_rips_program_stability`, `C99_grpph_dijkstra`, `C103_raw_doubles`, `C103_raw_bars`, `C110_reversal_doubles`, `C110_reversal_exact_doubles`, `C111_double_units`, `C112_parallel_doubles`, `C114_doubles`) and `C101_least_total_length` speak about real numbers and rest on the axioms of the standard library's real numbers, through `Reals` and Flocq (Flocq adds none):
`ClassicalDedekindReals.sig_forall_dec`, `ClassicalDedekindReals.sig_not_dec`, `FunctionalExtensionality.functional_extensionality_dep` and
`Classical_Prop.classic`. `vcheck` also reports seven constants of the standard library module
`Coq.ssr.ssrunder` (`Under_rel`, `Under_rel_from_rel`, `Under_relE`, `Over_rel`, `over_rel`, `over_rel_done`, `under_rel_done`); they come with loading the library
`ssreflect` through standard-library files and no theorem depends on them. It also lists the sealed constants of `Coq.Reals.Rdefinitions` (`RbaseSymbolsImpl.R`, `Rplus`, `Rplus_def`, ..., `RinvImpl.Rinv`, `Rinv_def`): they
are defined in that file by modules with opaque ascription, which `coqchk` counts as axioms and `Print Assumptions` does not.

## Findings about the code

Each is a theorem (or an example) about the model.

* C05: `Q` with magnitudes of 2^63 is silently wrong even with overflow checks (gcd or denominator cast to a negative `isize`).
* C82: without overflow checks a reduction over `Q` can silently return a wrong diagram (a 6 by 6 integer matrix).
* C19: `cache_cols` panics when a column is requested while an iterator over an uncached column is alive; `product` of a
  cached matrix with itself does that; C84: exactly when some row of the column was not requested before.
* C86: after a clearing reduction of a cached boundary, iterating a cleared column of `product(&cached, &V)` always panics.
* C28: a wrong `reverse_order` flag corrupts the essential set and leaves the pairs intact.
* C36: `RipsIndex` overflows for moderate dimension and number of vertices; in release two simplices get the same index.
* C38: `build_rips_bases` panics for `max_dim = 0` with two or more points.
* C43: `RipsCoboundary::column_with_filtration` (the override) panics or disagrees with `filtration_value`; built matrices avoid
  it because they go through the default method.
* C47, C50: shortest-path sums that overflow to infinity break the coherence of times; `n_vertices >= 65536` is truncated to
  `u16`, so whole vertices disappear; an edge that mentions a vertex not below `n_vertices` panics.
* C60: a loop (i, i) in the input gives an essential class of dimension 1 (loops stay in the ground complex and never
  become boundaries).
* C61: representatives are not returned in the order of the bars (both iterate over hash sets).
* Documentation: the digits of `{0,1}` and the formula for `ReverseBasis` in comments are off by one; `reverse(StandardBasis)`
  queried out of range returns garbage in release builds.
* C74: the Rips basis reads only `distances[w][v]` with `w < v` and 0 for vertices, while `filtration_value` reads all ordered pairs
  including the diagonal. The times agree exactly for tables with zero diagonal in which no entry below the diagonal exceeds both 0
  and its mirror image (`rips_matrix`: symmetric tables, zero-filled upper triangular tables). A zero-filled *lower* triangular table
  is accepted and gives wrong bars without an error.
* C78: nothing checks the order of the dimensions passed to the clearing reduction. Any order gives the right pairs, but in the wrong
  direction (downwards for a coboundary, upwards for a boundary) every birth is also listed as an essential class, without an error.
* C80: an edge whose end (cast to `u16`) is not below `n_vertices` makes `grpph` panic in the middle of the reduction (after the columns
  before it in the filtration order have been reduced), whatever the rest of the input; there is no check at the start.
