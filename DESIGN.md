# Design: a machine-checked model of PicoTree

The subject is the C++ source in `/repo` (Jaybro/pico_tree).  The model is in
`rocq/theories`, written in Gallina for Coq 8.16.1.  Nothing of `/repo` is
compiled or executed; every definition of the model cites the file and lines it
was transcribed from.

## 1. Shape of the model

* **Outcomes.**  Functions return `res A := Ok a | Ub reason | OutOfFuel`.
  Undefined behaviour (out-of-range access, null child, `std::prev` of an empty
  range, reading an uninitialised variable, reading past the end of a stream)
  and failing `assert`s are the distinct outcome `Ub`.  General recursion
  (tree construction) takes fuel; running out is `OutOfFuel`, never confused
  with a result.
* **Scalars.**  All code is a template in the scalar type.  The model is
  parametric in a record `scalar_ops T` of the operations the code uses
  (`+ - * /`, `abs`, `<`, `<=`, `numeric_limits::max/lowest`, constants).
  Theorems state what they need of them:
  * nothing at all (genuineness of results, permutation properties, save/load);
  * `ord_laws`: `<`, `<=` form a total preorder on the values that occur
    (true of integers, rationals, and of NaN-free IEEE floats);
  * `exact_laws`: the operations agree with rational arithmetic through an
    interpretation `val : T -> Q` (true of integers without overflow and of
    rationals; *not* of floats, whose rounding is exactly what property C41 is
    about).
  Instances: `Z`, `Q`, and all IEEE binary formats (Flocq's `binary_float`, `Floats.v`).
* **Standard algorithms.**  `std::partition`, `std::nth_element`, `std::sort`
  are arbitrary functions satisfying the post-conditions of the C++ standard
  (`std_laws`); theorems quantify over all of them.  A concrete instance shows
  the assumption is satisfiable and is used in examples.
* **Points, spaces.**  A space is a list of coordinate lists plus `sdim`;
  `wf_space` says that all points have `sdim` coordinates (guaranteed by the
  C++ types).  Indices are `nat`; index-type narrowing is modelled where it can
  matter (size of the space, the stop value).
* **Trees.**  `node B := Leaf b e | Branch d l r` with branch payload `B`
  being `branch_single` (Euclidean) or `branch_double` (topological).
  `create_node` works on the sublist `[begin,end)` of the index vector and
  returns the permuted sublist (the code permutes in place).
* **Searches** thread the mutable search state (`node_box_offset_`, `box_`,
  the visitor) explicitly, including save/restore, so that forgetting a restore
  changes the model.

Specifications live in `Spec*.v` and do not use the model's helpers.
Final statements live in `Prop*.v`, each `exact`-ing a lemma (refutations give
their witness in place), followed by `Print Assumptions` and by `Example`s that
instantiate the hypotheses.  `tools/manifest.py` collects the theorem names.

## 2. Plan per property

| id | model | proof method |
|----|-------|--------------|
| C01 | `create_node`, splitters, std oracles | induction on fuel; Permutation |
| C02 | same, fuel `n` suffices | induction on segment length; range laws for `max_side` |
| C03, C04 | `is_leaf`, `create_node` | induction |
| C05 | midpoint splitter | refutation: for all fuel, coincident points give `OutOfFuel` |
| C06, C07 | splitters | induction; counting |
| C08, C09 | `leaf_ranges` | structural induction; refutation by a computed tree |
| C10-C16, C19-C22 | `search_nearest_euclidean`, visitors | one generic theorem on visitors (every unvisited point is farther than the final max), then one lemma per visitor |
| C17, C18 | `search_box` with running box | structural induction; refutation by computation |
| C23 | all searches | induction with no scalar laws |
| C24, C25 | `metric_lpinf`, `metric_lninf` | refutation by computation; factor-`sdim` bound for lpinf |
| C26-C29 | `search_nearest_topological`, `metric_box_map`, segments | same generic argument with segment distances |
| C30 | corollary of exactness | uniqueness of sorted distance lists |
| C31, C32 | metrics, segments | arithmetic over Q |
| C33, C34 | byte-level save/load with arbitrary padding | induction; prefix argument |
| C35, C36 | heap state machine for allocators | invariant by induction on histories |
| C37 | header bytes | case analysis |
| C38 | interleaving semantics of row-writing threads | commutation / invariant |
| C39, C40 | unsigned 64-bit index arithmetic, strides | arithmetic mod 2^64 |
| C41, C57-C61 | IEEE instance (Flocq) | refutation by computation on binary64; rounding error analysis of the incremental distance: the contract "every unvisited point is farther than the current maximum" holds up to (1+u)^(2h)/(1-u)^n, by induction with a bound per level |
| C42 | index narrowing | refutation |
| C43 | explicit search state | induction |
| C44, C45 | `max_side`, `fit` | induction |
| C46 | `py_save`, `py_load` | from C33 and the header lemma |
| C47-C49 | `py_kd_tree`, `py_search_*` end to end | array lemma + loop theorem + C12/C14/C17 |
| C50-C52, C55 | same | refutation by computation |
| C53, C54 | argument checks | case analysis; refutations |
| C56 | `py_request` | stride arithmetic |
| C62 | `build_cover_tree` | invariant of insertion: permutation of stored points, bound per node |
| C63 | same | levels are raised by one until they reach a bound (Archimedes); refutation for doubles by a fixed point of the loop |
| C64 | `cover_search_*` | the generic visitor contract of C10 from the triangle inequality; `OrdQuery.v`/`ExactQuery.v` derive all answers from the contract |
| C65 | same | refutation by computation |
| C66 | `kd_forest_make` | reflections preserve lengths, so rotated coordinates stay in range and `build` is total |
| C67, C68 | `forest_search_*` | invariant of the priority queue: a key is a lower bound on the distance to the bounding box of the points below its node; unexplored points are far |
| C69, C70 | same | refutations by computation |
| C71, C73, C75, C77 | `view_space`, `view_point` over flat memory | address arithmetic; then C10 |
| C78-C84 | `write_bin` ... `read_xvecs` over a file system of byte strings | lengths and slices; Horner's scheme for the byte order |
| C85 | `from_euler`, `transform` over `R` | `ring` with sin² + cos² = 1 |
| C86, C87 | `read_scan`, `read_uosr` over lists of characters | induction over lines and directory entries |
| C88-C91 | searches over any metric / visitor | the generic visitor contract with the user's terms |
| C92 | same | refutation by computation |
| C72, C74, C76 | same | refutations by computation |
| C93, C94 | `forest_search_nearest` | the visitor contract for the reflected points, distances carried back; counting over the trees |
| C95 | `forest_search_nn` | a smaller search is a prefix of a larger one |
| C96-C98 | `run` over operations of a Python program | invariants: every block has one owner that is alive; whoever points to a block keeps its owner alive, or the program does |
| C99 | same | refutations by computation; refilling vectors in place |
| C100, C101 | same | the ownership invariant; references point to older objects |
| C102 | all of construction and search over `Int_scalar` | no operation leaves the range, so the run is equal, step by step, to one with unlimited whole numbers; then C04 ff. |
| C103, C105 | same | the order alone suffices (C10, C23); squares modulo 2^bits |
| C104, C106, C109 | same | refutations by computation; `1 / e = 0`; what wrapped distances are (`IntWrap.v`) |
| C107 | `build` over `Unsigned` | a cell with two different points has a side that is not zero |
| C108 | `build` over `Int_scalar` | the left part of every split is empty |
| C110 | `tree_run` (ModelHeap) against `value_run` | `repr`: a tree stands at a pointer on a set of distinct live nodes; the builder's steps preserve all other trees |
| C111, C112 | same, with every live chunk owned by an object | chunk count = nodes handed out |
| C113 | same | two witnesses |
| C114 | C110 and C10, C11, C14 | the tree an object holds was built over its points |
| C115 | `with_points`: the tree object with another point set (SpecStale) | the search theorem for a tree built over one point set and visits of another |
| C116-C118 | same | subtrees are skipped by the former distances, points judged by the present ones |
| C119 | same | whole subtrees are taken by the former positions, leaves by the present ones |
| C120 | same | witnesses |
| C121 | tree sizes (SpecShape) | leaves are not empty (C06); branches are leaves minus one |
| C122 | same; fuel of `create_node` | a branch has more than m points and each child at least one |
| C123 | same | coincident points fall on one side of every plane, so only nth_element separates them, one at a time |
| C124 | same | levels of the median rule (C07) |
| C125 | `save_data` (ModelSerial) | sizes of the layouts |
| C126 | the searches, on two trees | both answers against one specification; an answer is fixed up to ties |
| C127 | the searches, on one tree | the same |
| C128 | the searches, on two trees | minima and filters over a larger multiset |
| C129 | IEEE instance, the approximate visitors | rounding analysis of the reciprocal and the product on top of C41's contract; e = 1 by equality of visitors |
| C130 | the searches on arbitrary tree data; `load_data` | structural induction on the tree with invariant "all indices valid"; refutation by a computed file |
| C131 | the searches on any tree that is true of the points (`tree_of`) | the contracts of C10-C18 from branch truth instead of construction; made trees satisfy it |
| C132 | `load_data` on arbitrary bytes | inversion of each read into the write of the value read |
| C133 | `load_data` on arbitrary bytes | counting bytes; a family of files for the depth |
| C134 | `save`, `load` with the IEEE interchange format (`ModelFloatFile`) | Flocq's bit encoding is a bijection but for NaN; then C33 and C132 |
| C135 | `build_cover_tree` | invariant of insertion, rebalancing and promotion (`CoverInv.v`): a child is added only where `find_parent` stopped |
| C136 | `build_cover_tree` | the same invariant with distances to all points below; base >= 2 makes twice the child distance at most the cover distance; witness for 1.3 by computation |
| C137 | `build_cover_tree` | the same; skipped children are too far away by the triangle inequality |
| C138 | `search_nearest_euclidean` on made trees | induction with the nearest corner of the box as a place: the offsets are exactly its terms, it moves only to coordinates of points, so it stays on the right side of every cut |
| C139 | `save_data` | the written bytes satisfy a relation with explicit offsets; two texts of one tree differ in holes only; witness with doubles |
| C140 | `search_nearest_topological`, `s1_distance`, `segment_s1` in Flocq arithmetic | the rounded term is concave along the segment, so the box distance is the nearer end; each update of the sum loses two roundings; 1 - d is exact above one half (Sterbenz) |
| C141 | `cover_tree` searches in Flocq arithmetic | the pruning test is abstracted to a relation between bounds and points that a search may skip; a computed distance obeys the triangle inequality up to its error, rounding d - max_distance adds an error of the extent of the points; roots of positive floats never underflow |
| C142 | the Python calls of C47-C50 with floats | a call is as good as its single searches, for any property of a row; the height of the tree is bounded by C122, so the factor of C41 and C129 becomes one in the number of points |
| C143 | trees of floats with infinite coordinates | order laws hold for all numbers but NaN, so construction and boxes follow from the general lemmas; branches are characterised anew (`InfBuild.v`: each bound touches a point or is still where it started), searches are compared with those of the space cut off at 2^e (`InfSearch.v`), where the invariant of C41 holds along every path to a finite point |
| C144 | construction with both midpoint rules | generic argument over an abstract relation `near k a b` (`SpreadThms.v`): each split turns one `near (k+1)` side of the cell into two `near k` ones, so a path of length sum k_d ends in a cell whose points are pairwise close; instances for exact numbers (`SpreadExact.v`) and floats (`SpreadFloat.v`); groups at one place stay together, which gives the converse; refutation in floats by induction on fuel |
| C145, C146 | programs on the heap in which constructions may throw | `ThrowThms.v`: a construction with faults simulates the one without up to the fault; from there the state differs from the one before by nodes in chunks of its own allocator only, which the destructor releases; `SpecThrow.v` says what an unharmed state is; answers by C110, freeing by C111 |
| C147 | loading from a stream with exceptions | case analysis of `load_data`; proper prefixes by the lemma of C34 that loading one comes up short |
| C148 | `search_nearest_euclidean` and `metric_l2_squared` with any choice of sums contracted into fused multiply-adds (`ModelFused`) | the stored offset and the square inside a contracted sum differ by a rounding, so the invariant speaks about the exact squares of the rounded differences; three roundings a level, (1+u)^(3h)/(1-u)^(n+1); squares must not underflow (`apart`); on a grid nothing is rounded and the factor is 1 (`FusedGrid.v`) |
| C149 | searches and metrics over integers narrower than `int` (`ModelNarrow`): arithmetic in `int`, conversions at each store | the search is an instance of `search_gen` with the converting sum; offsets are nonnegative and add up to at most n times the largest term, so no conversion changes a value; the branches are tight (`build_tight_any`), so the side comes out right; then the contract of `OrdQuery.v` with exact arithmetic |
| C150 | the checks of test/pico_tree/common.hpp (`ModelOracle`): brute force search, `test_knn`, `test_radius`, `test_box` | the contract of `std::nth_element` gives a `knn_answer`; answers are unique up to equal distances (`knn_answer_unique`), and the first k of the answer with all points are the sorted distances that bound the approximate search; counting arguments on duplicate-free lists for radius and box |
| C151 | examples/kd_forest/kd_forest.cpp (`ModelPrecision`): `run_kd_tree`, `run_kd_forest`, `run_dataset` | induction over the queries with C10, C67 and C68; the round trip of C78 for the file |
| C152 | internal/kd_tree_builder.hpp (`ModelBuild`), `leaf_ranges` | induction over the tree with the levels and sizes of C04, C06 and C07 |

## 3. Trusted base

* **Coq 8.16.1's kernel** (including `vm_compute`, used in examples and witnesses).
* **Axioms:** every theorem of `Prop*.v` prints "Closed under the global
  context", except those of `PropFloat.v` (C41, C57-C59, C60_refuted, C61) and
  in `PropCover.v` `C63_construction_ends_real`, `C63_refuted`,
  `C63_coincident_points_diverge` and `C64_euclidean_*`, `C85_*` of
  `PropFormat.v`, `PropApprox.v` (C129), `PropFloatFile.v` (C134), `PropCoverInv.v` (C135-C137),
  `PropCircle.v` (C140), `PropCoverFloat.v` (C141), `PropPyFloat.v` (C142), `PropInf.v` (C143), `PropFused.v` (C148), `C144_float_*` of `PropSpread.v` and `C139_refuted`.  These speak about real
  or floating point numbers and list the axioms of the standard
  library's `Reals`: `ClassicalDedekindReals.sig_not_dec`,
  `ClassicalDedekindReals.sig_forall_dec`,
  `FunctionalExtensionality.functional_extensionality_dep`, and
  `Classical_Prop.classic`.  Flocq adds none.  No axiom, parameter, admitted
  proof or unchecked definition of our own exists in the development.
* **The transcription.**  The model was written by reading the sources; each
  definition cites the lines it stands for and states its simplifications.

What is modelled (paths below `/repo`):

| Coq file | code |
|----------|------|
| `Base.v` | outcomes, scalars, index types |
| `ModelBox.v` | `internal/box.hpp`, `metric.hpp`, `distance.hpp`, `internal/segment.hpp`, `internal/r1_*`/`s1_*` boxes |
| `ModelBuild.v` | `internal/kd_tree_builder.hpp`, `internal/kd_tree_node.hpp`, `internal/space_wrapper.hpp` (bounding box) |
| `ModelSearch.v` | `internal/kd_tree_search.hpp`, `internal/search_visitor.hpp`, `kd_tree.hpp` (all public searches), `internal/kd_tree_data.hpp` (leaf ranges) |
| `ModelSerial.v` | `internal/stream_wrapper.hpp`, `internal/kd_tree_data.hpp` (save/load), `kd_tree.hpp` (save/load) |
| `ModelMemory.v` | `internal/memory.hpp`: `list_pool_resource`, `chunk_allocator`, their moves and destructors |
| `ModelThrow.v` | exceptions in `internal/kd_tree_builder.hpp`: `build_kd_tree`, `create_node`; `internal/kd_tree_data.hpp`: `load`, `read`, `read_node`; `internal/memory.hpp`: `allocate`; destructors run while unwinding |
| `ModelHeap.v` | the same construction, searches, save and load once more with pointers: `internal/kd_tree_node.hpp` (child pointers, union), `internal/kd_tree_builder.hpp`, `internal/kd_tree_search.hpp`, `internal/kd_tree_data.hpp` on nodes of `chunk_allocator<node, 256>` and the index vector in place; `kd_tree.hpp` (move, destruction) |
| `ModelPython.v` | `_pyco_tree/kd_tree.hpp`, `py_array_map.hpp`, `core.hpp`, `darray.hpp`, `def_darray.cpp` |
| `Floats.v` | the scalar operations for `float` and `double` |
| `ModelFused.v` | the nearest neighbour searches with `metric_l2_squared`, compiled with contraction of floating point expressions |
| `ModelNarrow.v` | metrics and nearest neighbour searches over integers narrower than `int` |
| `ModelOracle.v` | test/pico_tree/common.hpp: `search_knn`, `test_knn`, `test_radius`, `test_box`; GoogleTest comparisons are parameters |
| `ModelPrecision.v` | examples/kd_forest/kd_forest.cpp: `run_kd_tree`, `run_kd_forest`, `run_dataset` without timing and printing |
| `ModelFloatFile.v` | object representations of `float` and `double` in files |
| `ModelInt.v` | the scalar operations for integer types of at least the width of `int` |
| `ModelCover.v` | `examples/pico_understory`: `cover_tree.hpp`, `internal/cover_tree_{base,builder,node,data,search}.hpp`, `metric.hpp` (`metric_l2`) |
| `ModelForest.v` | `examples/pico_understory`: `kd_forest.hpp`, `internal/rkd_tree_{builder,hh_data}.hpp`, `internal/kd_tree_priority_search.hpp`; `internal/point.hpp` (`normalize`) |
| `ModelLife.v` | `_pyco_tree/def_kd_tree.cpp`, `def_darray.cpp` (`keep_alive`), `darray.hpp`, `kd_tree.hpp` (outputs): objects, references and memory only, no values |
| `ModelAdapt.v` | `map.hpp`, `*_traits.hpp`, `internal/{space,point}_wrapper.hpp`; `examples`: `matrix_space.hpp`, `dynamic_space.hpp` |
| `ModelFormat.v` | `examples/pico_toolshed/pico_toolshed/format`: `endian.hpp`, `format_{bin,mnist,xvecs,uosr,ascii}.hpp` |


Assumptions that are hypotheses of theorems (not axioms):

* `std_laws`: the C++ standard's postconditions of `std::partition`,
  `std::nth_element`, `std::sort`.  Satisfied by `std_example`.
* `std_in_place` (C110-C112, C114): `std::partition` and `std::nth_element` keep
  the length of the range, whatever the predicate or comparison does.
* `ord_laws`, `exact_laws`, `field_laws`, `range_laws`, `mid_ok`,
  `mid_between`, `ok_finite`: what is needed of the scalar type.  Instances are in
  `Instances.v` and `Examples.v`.
* `libm` (only in the refutation C63): the values C's Annex F prescribes for
  `log(0)`, `pow(b, -inf)`, `ceil`, `floor`, `sqrt` of special values.
  `C64_euclidean_*` require `c_sqrt` to be the real square root.
* `shuffles`: `std::shuffle` permutes.
* `real_ops`, `powers`, `is_metric` (C136, C137): exact arithmetic; `pow`, `log`, `floor`, `ceil`
  give the power of a level and the levels next to a distance; the axioms of a
  pseudometric.  Instances: the real functions, and `q_levels` for rational numbers.
* `queue_laws`: `std::priority_queue` hands out a smallest element; the choice
  among equal keys is arbitrary.  Satisfied by `list_queue`.
* `draw_ok` (C66): the random numbers of a tree are not all zero and their norm
  has an exact root.  Random numbers are otherwise arbitrary (`gauss`).
* `codec_ok`: object representations of scalars decode to what was encoded.

Assumptions built into the model:

* `std::vector`, `std::list`, `std::optional` and iterators behave as lists and
  options.  Memory allocation does not fail, except in `ModelThrow.v`, where any
  allocation during a construction may (C145-C147); a new expression that throws
  changes nothing, and `std::istream::read` that comes up short throws if the
  caller enabled exceptions for failbit.
* Integer indices do not overflow unless the definition says so (narrowing of
  the stop value and of sizes is modelled).
* Floating point (`Floats.v`): operations are IEEE 754 with rounding to
  nearest-even, evaluated in the scalar type itself (no extended precision, and
  no contraction into fused multiply-add except in `ModelFused.v`, C148); NaN payloads are not distinguished.
  In files (`ModelFloatFile.v`) they have the IEEE 754 interchange format; every
  NaN is written as one quiet NaN.
* Integers (`ModelInt.v`): each operation yields the exact result if the type
  has it; otherwise an arbitrary function of the exact result (signed; in C++ the
  behaviour is undefined from there on) or the result modulo 2^bits (unsigned).
  Types narrower than `int` (`ModelNarrow.v`): operands become 32-bit `int`s, and
  results are converted modulo 2^bits where they are stored or returned; only for
  kd_tree construction, nearest neighbour and box searches.  With wider unsigned
  types only L2 squared compiles: `std::abs` of an unsigned number is ambiguous.
* Pointers (`ModelHeap.v`): memory is a map from addresses (chunk, offset) to
  nodes; addresses of freed chunks are not used again, so every use after free is
  visible as `UbDangling`.  All trees of a program have one type.  What is left of
  the space, indices and box of an object that was moved from is arbitrary.
* Files: `std::fstream` reads past the end leave the destination
  indeterminate and set the fail state.
* NumPy/pybind11 (`ModelPython.v`): contiguity flags, `PyArray_Resize` (with
  reference checking off, as pybind11 calls it) and CPython's slice arithmetic
  are transcribed from their documentation and sources, which are not in `/repo`.
* Lifetimes (`ModelLife.v`): CPython deletes an object only when nothing refers
  to it; `keep_alive<n, p>` makes the nurse refer to the patient until it is
  deleted; a view of an array refers to the array that owns the memory
  (`PyArray_SetBaseObject`), a memoryview to its exporter; `make_iterator` copies
  the two C++ iterators and refers to nothing; arrays made with base `None` do
  not own their memory unless the pointer is null.  All from the documentation
  and sources of CPython, NumPy and pybind11, which are not in `/repo`.  A
  program can otherwise do anything in any order; values are not part of this
  model.
* Eigen and OpenCV (`ModelAdapt.v`): the meaning of strides, `col`, `row`,
  `data`, `ptr`, `step1` is taken from their documentation; they are not in
  `/repo`.
* File formats (`ModelFormat.v`): a file system maps names to byte strings and
  does not change while it is read; writing to an open file does not fail; a
  failed read stores the bytes that are there.  `strtod`, `operator>>` and
  `operator<<` of doubles, `std::sin`, `std::cos` are arbitrary functions (C85:
  the real sine and cosine); the locale is the classic one; `^` and `$` of the
  file pattern match at the ends of the name only.
* OpenMP: a `parallel for` is an arbitrary interleaving of its iterations, each
  a sequence of single-cell reads and writes of the shared output (sequentially
  consistent).  Iterations of the model touch disjoint cells, which is proved
  (`within`), so weaker memory models have no race to exploit.

Not modelled: threads of Python programs (the bindings do not release the
interpreter's lock), `examples/` other than stated above, compile-time
template machinery (traits, concepts), printing, exceptions thrown by the
standard library for lack of memory (other than in constructions of kd_trees,
C145), the test suite other than test/pico_tree/common.hpp (C150), and
performance.

## 4. Findings

Claims of the documentation, or natural claims, that are false of the code; each
is proved as a theorem with suffix `_refuted`.

| property | finding |
|----------|---------|
| C05 | midpoint rule: construction never returns when more than `max_leaf_size` points coincide |
| C09 | `leaf_ranges` of a tree with an empty leaf dereferences an end iterator |
| C13 | `search_knn` with k = 0 is undefined for every tree |
| C15 | radius searches use the open ball |
| C18 | `search_box` misses points when user bounds do not enclose the points |
| C24, C25 | `metric_lpinf` / `metric_lninf`: the incremental box distance is not a lower bound, nearest searches are wrong |
| C34 | loading any proper prefix of a saved tree reads indeterminate values |
| C36 | move-assigning to a tree that owns nodes leaks them |
| C37 | a `.pkd` file shorter than its fixed header is read uninitialised |
| C40 | a single point in an F-ordered array is read as many 1-D points |
| C41 | with `double`, `search_nn` can miss the point of smallest computed distance (4 points in the plane); the answer is within a factor 1 + 2(2h+n)u of it |
| C129 | with floats the factor e of the approximate searches is exceeded by the rounding of distances and of 1/e |
| C60 | when distances overflow (or are NaN) `search_nn` stores nothing: the index of the result is whatever the caller had there |
| C42 | `max_leaf_size` values above the index type's maximum are narrowed, e.g. to -1, and construction never returns |
| C50 | Python `search_knn` with k > npts returns made-up entries |
| C51 | Python `search_knn` with F-ordered queries returns a scrambled matrix |
| C52 | a supplied output array of the right size but wrong shape is not resized; strided views are written outside of the view |
| C53 | trees of dimension other than 2 or 3 accept queries of any dimension |
| C54 | a 1-D array makes the constructor read past the shape vector |
| C55 | `load_kd_tree` accepts points that do not match the file |
| C63 | a `cover_tree` of doubles with two coinciding points is never finished when the shuffle puts these first |
| C65 | a `cover_tree` with a squared distance returns wrong neighbours |
| C68 | `kd_forest::search_nn` with `max_leaves_visited = 0` returns the caller's index |
| C69 | a `kd_forest` with `metric_l1` returns wrong neighbours and distances |
| C70 | a `kd_forest` of several trees reports the same point several times to a k-nearest visitor |
| C94 | a `kd_forest` reports every point within a radius once per tree |
| C72 | `space_map` with a run-time dimension but without the third argument has dimension 2^64-1; a compile-time dimension silently overrides a contradicting run-time one |
| C74 | Eigen maps with an inner stride, and rows of column-major matrices as queries, compile but are read as consecutive scalars |
| C76 | `opencv_mat_map` of a non-continuous `cv::Mat` reads padding as coordinates |
| C79 | `write_bin` of an empty vector writes nothing: an older file is read back instead |
| C82 | truncated MNIST files are accepted (missing pixels are zero or left over); 65536 x 65536 images overflow `int`; 14 x 56 and -28 x -28 images are accepted as 28 x 28 |
| C84 | `read_xvecs` ignores the dimension stored in the file |
| C87 | empty lines of a scan become points, a line with one number repeats it; the pattern's dot matches any character; a pose with fewer than six numbers is used uninitialised |
| C92 | a metric that returns the root of the sum (plain L2) is not only slow, as the example's comment says: `search_nn` returns a wrong neighbour |
| C97 | a tree from Python's `load_kd_tree` does not keep its points alive: searches read freed memory once the points are dropped |
| C98 | elements from iterating over a `DArray` do not keep it alive: they dangle once the `DArray` and the iterator are gone |
| C99 | searching into an existing `DArray` or `nns` array leaves earlier views dangling when memory has to grow; an iterator of a `DArray` that became shorter reads past its end |
| C104 | integer scalars: squared distances overflow; for `int`, a point at 65536 is nearer to 0 than one at 1 |
| C106 | unsigned scalars: the test for the nearer child is `> 0` on an unsigned sum; searches miss points, even one equal to the query |
| C107 | unsigned scalars: more than `max_leaf_size` equal points make `box::max_side` leave the split dimension uninitialised |
| C108 | integer scalars: `midpoint_max_side` multiplies by `scalar_type(0.5)`, which is 0; construction never ends |
| C109 | integer scalars: approximate searches multiply by `1 / e`, which is 0; `search_radius` finds nothing, `search_nn` any point |
| C111 | assigning to a tree object that still holds a tree loses the memory of its nodes (as C36) |
| C120 | a `kd_tree` whose points are modified or that is loaded with other points silently gives wrong answers; with fewer points it reads beyond them; with more points `search_knn` returns entries of no point |
| C123 | k points at one place make a tree with the default rule at least k - m deep, each level splitting off one point: recursion of depth n and O(n^2) work for duplicates, while the median rule stays logarithmic |
| C130 | `load` validates nothing: a file with one byte changed loads and the first search reads outside of the points; a file that is in range but wrong gives wrong answers (C131) |
| C136, C137 | `cover_tree` with a base below 2 (1.3 is what the comments call generally fastest): nodes do not cover the points below them and points are not below the nearest sibling, so that it is no (nearest ancestor) cover tree; searches are right because `max_distance` is recomputed at the end |
| C133 | the depth to which `load` recurses is bounded only by the length of the file: 22 bytes per level, no points needed |
| C139 | `save` of a tree of doubles writes four indeterminate padding bytes per branch: files are not reproducible and leak memory contents |
| C140 | `metric_so2` near the end of [0, 1]: 1 and 2^-55 are at distance 0, so the search for 1 returns 2^-55 although 1 itself is a point; with coordinates below 1 the relative error is at most one half |
| C141 | `cover_tree` of doubles: `d(q, node) - max_distance` loses the digits of small distances when points are far apart; the returned neighbour was 2^52 times as far as the nearest, and `search_radius` misses a point at 2^-51 for the radius 1 |
| C142 | `KdTree.search_knn(queries, 1)` on float64 arrays: the returned neighbour is not the one with the least computed distance (the points of C41) |
| C143 | points with infinite coordinates: `search_knn(q, k, knn)` with more than the number of finite points leaves entries unwritten (index 0, distance 0 in a fresh vector, which sorts before the true neighbours); several points at infinity on a line make `box::max_side` leave its output uninitialised (NaN sides), so that the constructor is undefined |
| C143 | NaN coordinates: two NaN on a line make construction undefined; a single NaN breaks the strict weak order that `nth_element` requires, and a search then misses finite points |
| C144 | midpoint rule in floating point: two different points one unit in the last place apart are never separated when `max_leaf_size` is 1, since the middle rounds to the lower one and `<` leaves the left half empty; the recursion never ends |
| C113 | a `kd_tree` that was moved from keeps its root pointer: queries read past the empty index vector or freed memory |
| C148 | `search_nn` with `metric_l2_squared` on `double` can return another point when the compiler contracts `d += x * x` (the default of GCC on targets with fused multiply-add): two points whose distances differ in the last place |
| C149 | `search_nn` over `uint8_t` coordinates of at most 20: a squared distance of 256 is stored as 0, and the farther point is returned.  With `uint16_t`, `metric_l2_squared` overflows an `int` (undefined behaviour) when coordinates are more than 46340 apart |
| C150 | `test_radius` counts points with distance `<=` the radius while `search_radius` returns those with `<`: a correct tree fails the test when a point lies at exactly the radius. `test_radius` and `test_box` accept duplicates in place of missing points, `test_knn` ignores indices |
| C151 | the example that measures precision reads any existing file of ground truth: with one written for more queries it reads out of bounds, with one for other data it reports a wrong precision.  It compares indices, so that ties lower the precision although a nearest point was found |
| C152 | the default rule gives fewer than 2^d leaves if a point far from the others is split off early: the test of leaf_ranges, which expects four leaves of 100 random points, depends on the points it draws |

## 5. Seeded bugs

`seeded/LOG.jsonl` records the wrong programs the theorems were tested against;
`seeded/AUTO.jsonl` the 1447 edits of single tokens that were tried automatically.
