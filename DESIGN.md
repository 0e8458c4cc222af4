# GooseEYE: formal model and proofs

Subject: `tdegeus/GooseEYE` at the pinned commit in `/repo` (C++ headers, plus the
Python layer). Prover: Coq 8.16.1. Sources: `rocq/theories/`.

## Approach

* The C++ is modelled function by function as total, computable Gallina functions.
  Every definition cites the file and lines it models.
* Partiality is explicit. A model function returns `res A`:
  `Ok a` (normal return), `Throw` (a GOOSEEYE assertion or exception), `UB`
  (out-of-range access, or another operation whose C++ behaviour is undefined or
  outside xtensor's contract) or `NoFuel` (a `while` loop not finished within the
  given number of steps). "Never out of bounds" and "terminates" are thus ordinary
  theorems of the form `exists v, f x = Ok v`.
* GOOSEEYE_ASSERT is a compile-time switch (`GOOSEEYE_ENABLE_ASSERT`: on by default in the
  Python module, tests and examples, `CMakeLists.txt:16`; off by default for users of the
  headers), modelled as a boolean `asrt`. Theorems quantify over both values unless they
  say otherwise.
* Specifications are in separate files (`Spec*.v`) that do not use the model's
  helpers (connectivity as reflexive-transitive closure, sums over all pixels, ...).
* Property theorems are in `Properties_*.v`. Those contain only statements closed by
  `exact lemma`, `Print Assumptions`, and non-vacuity examples.
* A property that is false of the code gets a theorem `..._refuted` with a concrete
  witness, next to the strongest guarded positive theorem we can prove.

## Per-property plan

| id | model | proof |
|----|-------|-------|
| C01 | `Cluster.v`: constructor, `add_image`, `label_impl`, `prune`, `clusters` | invariant of the batch state + connectivity invariant; adjacency related to the spec for the default kernels |
| C02 | same | scan-order invariant (roots ordered by first pixel), prune is monotone |
| C03 | `Cluster.v` with operation list `run` | induction over history |
| C04 | same | induction over history with the invariant of C01 for any symmetric kernel in range |
| C05 | same | corollary of C03 + C04 |
| C06 | same | `run` never gives UB/NoFuel/Throw on legal operations; counting argument for the label table, chain argument for the linked list |
| C07 | same | invariant relating the running batch to the labels at its start |
| C08 | `prune` | direct on the quiescent invariant |
| C09 | `reset` | equality of states |
| C10 | `add_sequence` | same loop as `add_points`; induction |
| C11 | `add_sequence` | false: witness; guarded: every report is a change or a revisit; exact when all pixels are new |
| C12 | `kernel_to_dx`, `nearest` | computation; rank 3 false: witness |
| C13 | `get_compare_*` | arithmetic with 64-bit wrap; false out of range and for one-row images: witnesses; guarded positive theorem |
| C14 | labeller with asymmetric kernel | false: witness; the partition for any kernel in terms of the order (`ClusterAny.v`) |
| C15 | `clusters` | false: witness; true if different values do not touch (from C01) |
| C16-C21 | `Labels.v` | finite-map model of `std::map`, induction over pixels; C20 false for negative labels and the empty image |
| C22-C26 | `Dilate.v` (padded 3-d array, scan, copy back) | invariants over scans; C25 periodic and C26 false |
| C27-C31, C56 | `Path.v` | loop invariants over the error terms; C29, C31 false in some ranks/modes |
| C32-C33 | `Ensemble.v`: `pad_width`, `distance` | arithmetic, square root over R |
| C34-C40, C43-C46 | `Ensemble.v` over exact rationals | view/pad index lemmas, exchange of sums; C36 false in periodic mode, C40 false for one-pixel regions |
| C41, C42 | `W2c` | false: witnesses, plus exactly what the code does compute |
| C47-C49, C57, C58 | `Center.v` over R | algebra; trigonometry with the standard library's R; C48 translation false for balanced positions |
| C50, C51, C59 | `Circles.v`, `Kernel.v` | induction over circles; computation; C51 false in rank 3, C59 for small images |
| C52, C53, C60, C61 | `Structure.v`: numpy slices as index functions, fft by its definition over R | sums of cosines and sines, re-indexing modulo n; C53 false for the entries with frequencies of opposite sign |
| C64 | `Cluster.v` | every call is a fold of one abstract step over its pixels |
| C65-C67 | `clusters` | from C01 and the characterisation of the labels: related images have related connectivity |
| C68 | `dilate` | from C23: algebra of "reached within n steps" |
| C69 | `Ensemble` | every two-point call is a sum over pairs (`DerivedEnsemble.v`); re-indexing of the sums |
| C70-C74 | `Ensemble` | from the same sums over pairs (`DerivedAlgebra.v`); C72 false for periodic images with masks |
| C75, C76 | `Ensemble`, constructors with defaults in `EnsemblePy.v` | induction over histories (`DerivedRun.v`); C75 false for the Python default |
| C77 | `EnsemblePy.v`: overload lists of python/main.cpp, two-pass dispatch, dtypes | case analysis over overloads and dtypes; false, with exactly when |
| C78-C80 | `Double.v` (binary64 of Flocq), `EnsembleFloat.v`: `Ensemble` once more, every operation rounded | simulation: `EnsembleFloat.v` against `Ensemble.v`, sums of integers below 2^53 are exact; C79, C80 false in general |
| C81 | `Structure.v` | case analysis of the shapes; the sum of the samples is invariant under permutation |
| C82 | `Ensemble.v`, `EnsembleFloat.v` | exact: inequalities between sums; doubles: rounding is monotone, and `round(s/n)^2 <= q/n` for integers unless all pixels are equal; false for 0.1 |
| C83 | `PathFloat.v`: `path::actual`, `path::full` once more, every operation rounded | simulation: `PathFloat.v` against `Path.v`; crossings are equal or 1/(2*707^2) apart, the rounding errors of a turn stay below 2^-37 and do not add up beyond 2^-25, so the tolerance 1e-6 decides alike |
| C84 | `Path.v`, `PathFloat.v` | up to 707 pixels: C56; false at 708: one turn computed, later turns only move on |
| C85-C86 | `Ensemble.v`: `L` | C40 with the paths fixed before the image; injection of walks into pairs of foreground pixels; exchange of counts |
| C87 | `Ensemble.v`: `L`, `Path.v` | for every offset a border element is constructed whose path passes through it (C28, C56); the value one is false for images that are not periodic |
| C88 | `Ensemble.v`: `L` | paths along one axis are straight; reversal of stretches; opposite offsets false in two dimensions |
| C89-C91 | `Ensemble.v`: `S2`, `W2` | sums over the pixels of a periodic image are invariant under a shift; Cauchy-Schwarz by the discriminant; exchange of sums |
| C92 | `Ensemble.v`, `Structure.v` | both sides are the double sum over pairs of pixels, regrouped by offset; parity removes the sine part |
| C94-C96 | `BindingsPy.v`: parameters, names, defaults, overloads and casts of python/main.cpp | case analysis; names in any order by permutation; histories in Python simulated by histories in C++ (C06); C94, C95 false, with exactly when |
| C97 | `EnsembleFloat.v` against `Ensemble.v`, for any doubles (`SpecError.v`: bounds) | relation between the cells: exact sum, double, number of terms; preserved by every rounding, loop and call; then the division |
| C98 | `BindingsGeom.v`: arguments of `path`, `dummy_circles` and the centers | the casts leave integers alone; rows of a table; false for fractions |
| C99 | `Labels.v`, `Center.v`, `Cluster.v` together | marks of the pixels of a label; C16-C19 and C04 combined |
| C100 | `Center.v`, weights and label images | C47, C48 for weights; a roll is a displacement and a wrap; balanced positions false |
| C101 | `Path.v` | closed form of Bresenham; mirrored and permuted states; `actual` is the ordered list of pixels the line goes through; ties and corners false |
| C102 | `Circles.v` | pixel by pixel from C50: a pixel is 1 exactly if a circle of the list covers it |
| C103 | `Circles.v`, `Cluster.v` | every circle is connected by faces through its centre row; paths of pixels give chains of circles and back (C02) |
| C104 | `CirclesFloat.v`: `dummy_circles` once more, every operation rounded | a double lies between `k` and `sqrt(k^2 + 1)` below 2^26; quotients of integers round to the right side; pi by Machin's formula (`PI_2_3_7_ineq` of the standard library); relative errors |
| C105 | `CenterFloat.v`: `center` and so on once more, every operation rounded; `cos`, `sin`, `atan2` and sums are arguments | errors of sums in any order; Lipschitz constants of `cos` and `sin`; two directions that are close have close angles (`atan t <= t`) |
| C106 | the same | monotonicity of rounding; refuted for length 115, where `len * (2 pi) / (2 pi)` rounds up |
| C107 | `BindingsCall.v`: parameters with names and defaults of python/main.cpp | matching of arguments with parameters is sound and complete for calls that give each argument once; names in any order by permutation |
| C108 | `EnsembleCall.v`: parameters and overloads of `Ensemble` and the wrappers | every overload applies exactly if that of `EnsemblePy.v` does, by cases on the number of positional arguments; false for one-pixel masks and for a flag as fifth argument of `W2c` |
| C109 | `Dilate.v` | the loop of one pass visits pixels in row-major order (sorted list), so the last source prevails; induction over the passes; donors are decidable, so the rule is a function |
| C110 | `Ensemble.v`, `Path.v`, `Cluster.v` together | a step of a path of `full` is a step to a face neighbour, so a free stretch is a chain and C01, C04 give one label; counting of walks as in C85; along an axis every path is straight (C118); diagonal steps false |
| C111 | `StructureVar.v`: the second moment | the two sums by induction over the samples; the variance by algebra |
| C112 | `StructureExn.v`: the object left behind by an exception | by cases; induction over the calls |
| C113 | `Ensemble.v`, `Labels.v`, `Cluster.v` together | the sum over the offsets is a sum over all pairs of pixels, grouped by label |
| C114 | `Ensemble.v` | every counted step of a walk ends in a pixel (periodic), so the quotient is an average; linear in the values by the formula of W2c; bounds false if not periodic |
| C115 | `Ensemble.v`, `Path.v` | the end points are permuted by the move, the paths by C101, the sums over pixels by a one-to-one map; false for even regions of interest (flips) and `full` (transposes); rolls for every region of interest from C137 |
| C116 | `Refused.v`: the methods as sequences of statements on the fields, with the object left behind by an exception | every exception is thrown before the first assignment; equal to the models without exceptions by induction over the loops; false without assertions for a mask of `mean` of another shape |
| C117 | `Ensemble.v` | the sums at an element depend on the region only by the offset (C34-C39), also summed over calls (C43); false of `L` off the axes and of `W2c` (witnesses) |
| C118 | `Ensemble.v`: `L`, `Path.v` | a path approaches its end along every axis at every step, so what passes a point of an axis went straight to it; first and norm have the same number of paths as a factor |
| C119 | `Ensemble.v`, `Path.v`, `Cluster.v`, `Dilate.v` | the pixel numbers stay the same; a displacement gets a zero component; a dimension without slope does not change what the path loops do in the others; a pixel that is its own periodic neighbour changes no cluster |
| C120 | `Ensemble.v` | the explicit periodic sums; each pixel has as many copies as there are tiles, and a copy sees the same values at every displacement |
| C121 | `Cluster.v`, `Dilate.v`, `Ensemble.v` | adjacency inside the image is adjacency of the places (row-major order is kept, so the labels are too); a walk of kernel displacements is clamped to the image; pairs that involve a masked pixel do not count |
| C122 | `Cluster.v`, `Dilate.v` | steps in the repeated image are steps modulo the shape, and every step of the image can be taken from every copy; counting by the first pixel of every cluster |
| C123 | `Dilate.v`, `Cluster.v` | induction over the iterations by the rule of C109: every new pixel of a label is a kernel step from an old one; steps over an edge pass over faces that are also reached; counting as in C122 |
| C124 | `LabelsTyped.v`: the label functions with value types, conversions, promotions and overflow | the typed map is the exact map with its sizes converted; the number of labels is less than the number of values of the type; conversions of what fits are the identity |
| C125 | `Center.v`, weights and label images | reflections, as C100 (the sums of cosines and sines are reflected); each entry is a function of one column and one side; balanced positions false |
| C126 | `IntArith.v`: `path` and `dummy_circles` with checked `int`s and rounded `double`s | invariant of the loops (the decision variables stay between -a_j and a_i, the pixels between the end points, the counter is the number of rows); false near the ends of the range of `int` |
| C127 | `ClustersInt.v`: `clusters` with the conversion to `int` | labels are at most the number of clusters (C02); false for an image of every second of 2^32 + 1 pixels |
| C128 | as C52, C53 | the power of mirrored (addition theorems), affine (sums of cosines and sines over a period vanish) and transposed samples; false for mixed frequencies in two dimensions |
| C129 | as C23 | the foreground is what is reached by kernel steps (C23); steps are carried along by the moves, and reversed by the mirrored kernel |
| C130 | `StructureFloat.v`: `Structure` with IEEE 754 numbers; the transform is an argument | the error of a product, of a quotient (C105) and of a sum (C105) add up; entries are written in pairs |
| C131 | `Collapse.v`: docs/examples/W2c.py between `clusters` and `W2c`; the rest is C01, C41, C47-C49 | rounding and clipping give the closest pixel, the last assignment is the highest label; then C41; three images for which nothing is counted |
| C132 | all of `Ensemble.v`, `Refused.v` | per call: the assertions decide exactly `proper`; then every window, path and target lies inside (the lemmas of C34-C42, redone for masks of any values); induction over the session |
| C133 | `CollapseFloat.v`: the lines of `Collapse.v` on binary64 | not periodic: sums of coordinates are exact, and a rounded quotient has the same nearest integer; periodic: the error bound of C105 with `steady`; refuted by the last bits of sin(M_PI/4) and sin(7 M_PI/4) |
| C134 | `Layout.v`: an array as shape, strides and a block of memory; `flat(i)` the i-th element from the data pointer; the functions of `Cluster.v` and `Labels.v` on it | the places of the pixels are a permutation of the storage for arrays without gaps; label functions treat every label by itself; refuted by a Fortran-ordered image, a view with gaps and a reversed view |
| C135 | `Alias.v`: programs of calls, reads, copies and writes on a heap of NumPy arrays, `m_label` at address 0 | invariant on addresses, induction over programs; refuted by programs of three statements |
| C136 | `Path.v` | invariant on the parameter of the line at which each axis is crossed next; the last crossing of one axis against the first one too many of another |
| C137 | `Ensemble.v`: `W2c` | the walk as a sum of writes each of which succeeds or leaves the array |
| C138 | `Dilate.v`: `dilate`, `periodic_copy` | the padded array holds a field over the lattice, pass by pass; the six copies seen from one pixel choose the first of its 27 images |
| C139 | `Cluster.v`, `Dilate.v`, `Ensemble.v`, `Path.v`, `Center.v` | an order of axes is a permutation with an inverse; moves, faces and fits are stated per axis, so the laws for matched pixels apply |
| C140 | `Cluster.v` | simulation of the two labellers: all members but the image stay equal, the image is carried; `label_impl` depends on the set of connected labels only; histories with images from C04 |
| C141 | `Cluster.v` | an order isomorphism of the labels and of the represented labels of the two states is kept by every call; `prune` is order isomorphic to its argument and depends on the order only |
| C142 | `Cluster.v` | the abstract step `apoint` of the refinement (C04) read pixel by pixel; the labels in use before and after are permutations of `K ++ R` and `m :: R` |
| C143 | `PathFloat.v`, `IntArith.v` | simulation as in C83, on the parameter of the line at the next crossing of each axis (C136); it need only hold until one axis has passed its target, after which neither program can end |
| C144 | `EnsembleMachine.v`: `EnsembleFloat.v` with the paths of `IntArith.v` | every path starts at the origin and is at most half the region long (C83, C126); induction over the end points and the calls, which keep the extent of the region |
| C145 | `Cluster.v`, `Labels.v` | the first pixel of a periodic cluster is the first of its piece; from C01, C02, C16, C17 and C65 |
| C146 | `StructureFreq.v`: `q` and `qnorm` with IEEE 754 numbers, `fftfreq` as NumPy computes it | relative errors of a product, a sum and a root; rounding is monotone and odd; the root of a rounded square |
| C147 | `EnsembleDistFloat.v`: the four `distance` with IEEE 754 numbers, `linspace` either way, `pow` by contract | whole numbers below 2^53 are exact; roots of different whole numbers are 2^-26 apart; relative errors of products, squares, sums and a root; frames of all calls |
| C148 | `Ensemble.v` as is | sums over pairs at an offset are sums over a pixel moved to both places; the form is a sum of squares (per label for C2); Cauchy for the triangle inequality |
| C149 | `Ensemble.v` as is | C2: exchange of the sums over pairs and labels; heightheight: the square expanded, both squares being S2 at the centre by moving the sum |
| C150 | `Ensemble.v`, `Path.v` as is | from C118: stretches of t pixels minus those of t + 1; runs that end after t + 1 pixels correspond, moved by a pixel, to those that end after t and do not begin there |
| C151 | `Cluster.v`, `Ensemble.v` as is | the closed form has the zero set, partition and numbering that C01 and C02 prove, and these determine the labels; the number by induction over the row; L from C88 |
| C152 | `Cluster.v` as is | pixels added one by one (C64): by C142 a pixel that touches k clusters changes their number by 1 - k, and k is at most the number of its neighbours; the pairs that S2 sums one pixel away along the axes contain every pair of face neighbours |
| C153 | `Cluster.v`, `Ensemble.v` as they are | an offset of one pixel along an axis leads to a face neighbour, and face neighbours in the phase have one label (C01); the sums are compared term by term; for L: C118, a stretch of two pixels is a pair; for labellers: C04 |
| C154 | `Cluster.v`, `Ensemble.v` as they are | C2 is at most S2 term by term, so equal sums have equal terms; every pair of pixels is a term at some offset of the region; C01 |
| C155 | `Ensemble.v` as is | heightheight is a sum of squares over the pairs, so it is zero exactly if every term is; C70 carries that to S2 |
| C156 | `Ensemble.v` as is | the difference of the two sides is the sum of the squares of f(p) - g(p + d) over the pixels (C35); it is zero exactly if every term is |
| C157 | `Ensemble.v` as is | term by term C2 counts at most the labelled pixels (C37); equal sums have equal terms |
| C158 | `Cluster.v`, `Ensemble.v` as they are | C155 gives that the phase repeats; the clusters depend on the phase only (C66) and follow a displacement (C67) |
| C93 | `Structure.v`: `cast` | the entries are the floor of the power; false, with a bound on the error |
| C54, C55, C62, C63 | `Misc.v` | direct; C54 false in Python |

## Trusted base

* Coq 8.16.1's kernel (no native compiler; `vm_compute` is used in examples and witnesses).
* The axioms that `Print Assumptions` lists beneath each theorem, all from the standard library.
  * No axiom ("Closed under the global context"): every theorem of C01-C46 except
    `C33_length_is_euclidean`, `C50_image_is_union_of_discs`, `C50_bad_arguments_throw`, C51,
    C54-C56, C62-C77, `C82_exact_range`, `C84_pixels_on_the_line_partial`, C85-C91, C94-C96,
    the theorems of C98 on `path` and `dummy_circles`, the other theorems of C99, C101, C102, C103, C108-C110, C113-C124, C127, C129, C132, C134, C135, C136, C137, C138, C139 (but the centers), C140, C141, C142, C145, C148 but for `C148_triangle`, C149, C150, C151, C152, C153, C154, C155, C156, C157, C158.
  * `ClassicalDedekindReals.sig_forall_dec`, `ClassicalDedekindReals.sig_not_dec` and
    `FunctionalExtensionality.functional_extensionality_dep` (the construction of the reals):
    `C33_length_is_euclidean`, `C50_within_is_euclidean`, C52, C53, C59, C60, C61 (three of
    C61 without `sig_not_dec`), C81, C92, C93, C111, C112, C128, `C48_circular_mean_is_determined`.
  * the same and `Classical_Prop.classic` (trigonometry, `atan`; Flocq): C47, C48, C49, C57, C58,
    two theorems of C99 (measures), C100, C125, C126, C130, C131, C133, C139 (centers), C143, C144, C146, C147, `C148_triangle`, C78-C80, C82 but for `C82_exact_range`, C83, C104-C107, the other theorems of C84, C97, and the other theorems of C98.
* Flocq is used for the operations of IEEE 754 numbers. It has no axioms of its own.
* The faithfulness of the model: the reading of the C++ and Python text, and the contracts of
  the libraries listed under "Idealisations".

## What is modelled

| code | model |
|------|-------|
| `GooseEYE.h`: `kernel::nearest` | `Kernel.v` |
| `GooseEYE.h`: `path`; `detail.hpp`: `path::bresenham`, `path::actual`, `path::full` | `Path.v` |
| the same, with `double` as IEEE 754 binary64 instead of rationals | `PathFloat.v`; with overflow of `int` as well `IntArith.v` |
| `GooseEYE.h`: `dummy_circles` (both overloads) | `Circles.v`; with IEEE 754 numbers `CirclesFloat.v`; with overflow of `int` as well (the overload with given circles) `IntArith.v` |
| `GooseEYE.h`: `dilate` (four overloads), `periodic_copy_*`; `detail.hpp`: `pad_width`, `atleast_3d_axis` | `Dilate.v`, `Array3.v` |
| `GooseEYE.h`: `labels_map`, `labels_rename`, `labels_prune`, `labels_reorder`, `labels_sizes` | `Labels.v`; with the value types of C++ `LabelsTyped.v` |
| `GooseEYE.h`: `kernel_to_dx`, `ClusterLabeller`, `ClusterLabellerOverload`, `clusters` | `Cluster.v`; the result of `clusters` as `int` `ClustersInt.v` |
| `GooseEYE.h`: `ClusterLabeller::repr`, `shape`, `size`; `version.h`; `python/main.cpp`: the bindings of the labeller; `python/GooseEYE/__init__.py`: `ClusterLabeller` | `Misc.v` |
| `GooseEYE.h`: `center`, `center_of_mass`, `PositionList`, `labels_centers`, `labels_centers_of_mass`; `detail.hpp`: the helpers they use | `Center.v`; with IEEE 754 numbers `CenterFloat.v` |
| `GooseEYE.h`, `Ensemble*.hpp`: `Ensemble` | `Ensemble.v` |
| the same, with `double` as IEEE 754 binary64 instead of rationals | `Double.v`, `EnsembleFloat.v`, `EnsembleMachine.v` |
| `GooseEYE.hpp`: free functions `S2`, `C2`, `W2`, `W2c`, `heightheight`, `L`, `distance` | `Ensemble.v`: `single`, `distance*` |
| `docs/examples/W2c.py`: from `clusters` to `W2c` | `Collapse.v` |
| `python/GooseEYE/__init__.py`: `Structure` | `Structure.v`, `StructureVar.v`, `StructureExn.v`; the mean with IEEE 754 numbers `StructureFloat.v` |
| `python/main.cpp`: `Ensemble` and its functions: defaults, overloads, conversion of dtypes | `EnsemblePy.v` |
| `python/main.cpp`: `dilate`, `clusters`, `labels_*`, the methods of the labeller: names, defaults, overloads, conversion of dtypes | `BindingsPy.v` |
| `python/main.cpp`: `path`, `dummy_circles`, `center*`, `labels_centers*`: defaults, conversion of dtypes | `BindingsGeom.v` |
| the same, and `clusters`, `labels_*`: names, arguments by position and by name | `BindingsCall.v` |
| `Ensemble` and its functions: names, arguments by position and by name, flags and masks | `EnsembleCall.v` |

Not modelled:

* xtensor, xtensor-python, pybind11, NumPy, enstat and prrng (contracts assumed, below).
* `dummy_circles(shape, periodic, seed)` in Python; Python objects other than arrays of rank one or more, integers, flags, modes and lists as arguments.
* Rounding inside `np.fft.fft` and `np.fft.fft2`, rounding of the variance of `Structure`.
* The base class `enstat.static`: by its contract (`first`, `second`, `norm` are the sums of the samples and their
  squares and the number of samples; `mean`, `variance` follow from them).
* `version_dependencies` and `version_compiler` (text made by the preprocessor and xtensor).
* CMake, packaging, documentation, examples.

## Idealisations

* `double` is modelled by exact rationals (`Qc`) or, where square roots and
  trigonometry occur, by the standard library's `R`. Rounding is modelled in `EnsembleFloat.v`
  (C78-C80, C82, C97), `PathFloat.v` (C83, C84, C143), `EnsembleMachine.v` (C144), `CirclesFloat.v` (C104), `CenterFloat.v` (C105, C106), `StructureFloat.v` (C130), `StructureFreq.v` (C146) and `EnsembleDistFloat.v` (C147) only: binary64, to nearest even, NaNs not told apart,
  no fused multiply-add (but in `StructureFloat.v`, where products of complex numbers may be fused either way). In `EnsembleFloat.v`, `pow` and the order in which `xt::sum` adds are
  arguments of the model (`libm`) with the contract `library` or, for C97, `close_squares` and
  `any_order`; in `CirclesFloat.v`, `pow(x, 0.5)` is an argument with the contract `accurate`;
  in `CenterFloat.v`, `cos`, `sin`, `atan2` and sums are arguments with the contracts `precise` (or `correctly_rounded`) and `sums`;
  in `EnsembleDistFloat.v`, `pow(x, 2)` is an argument with the contract `near_squares` or `exact_squares`.
* `int` / `ptrdiff_t` values are unbounded `Z`, except in the neighbour arithmetic of
  the labeller where the signed/unsigned 64-bit conversions matter, and in `LabelsTyped.v`; there
  wrap-around is explicit (and `int` has 32 bits). In `IntArith.v` the `int`s of `path` and
  `dummy_circles` are checked: overflow is `UB`.
* xtensor itself is trusted: row-major layout (other layouts only in `Layout.v`, where
  `flat(i)` is storage position `i`, iterators are row-major, `empty_like` of a container of
  dynamic layout is row-major, and `layout()` is NumPy's `C_CONTIGUOUS`), stride 0 for axes of
  length one,
  unchecked `operator()`/`flat`, `periodic()`, `in_bounds()`, `pad`, views, `argwhere`, `unique`.
  Its contract as used is written down in `Base.v`/`Arr.v`.
* 64-bit sizes: statements about pad widths and labels carry explicit bounds (axes and labels below
  2^62, Bresenham coordinates below 2^30, other paths up to 10^6 pixels) inside which no
  wrap-around occurs.
* A loop that the code repeats until a condition holds takes `fuel`; theorems say how much
  suffices, and running out is a distinct outcome (`NoFuel`).
* `std::map`, `std::vector`: finite maps and lists. `at` outside a map throws in C++; where the code
  dereferences an end iterator or indexes past a vector the model says `UB`.
* Uninitialised memory (`np.empty_like`, `xt::empty`): an arbitrary value that is an argument of the model.
* The random number generator of `dummy_circles`: an arbitrary function argument.
* NumPy: basic slicing, `flip`, `fft`/`fft2` as the defining sums; `enstat.static.add_sample` adds the
  sample to `first` and counts it in `norm`; `mean()` is their quotient.

* pybind11 hands an `xt::pytensor` that is returned by reference to Python as the NumPy array that it is a
  handle of; copying an `xt::pytensor` or `xt::pyarray` in C++ copies the elements (`Alias.v`).
* pybind11: overloads are tried in order of definition, first without and then with conversion of
  arguments. xtensor-python: `pyarray<T>` without conversion accepts exactly dtype `T`; with
  conversion any numeric array, cast as `astype` does. `pytensor<T, N>` also needs `N` axes; an
  argument of another rank does not load (the calls `dilate(labels, iterations=1)` of the test suite
  rely on it). Arguments are matched by position, then by name, then with the default.

## Where the code disagrees with the property

Each has a theorem ending in `_refuted` with a witness.

| id | finding |
|----|---------|
| C11 | `add_sequence` reports positions at which a pixel is revisited although nothing is started or merged |
| C12, C51 | `kernel::nearest(3)` has 19 entries (edge neighbours too); the default labeller uses 6 neighbours |
| C13 | periodic rank 1, 2: `(n + i + d) % n` is computed unsigned, so offsets below `-n` are wrong; not periodic: axes of length one have stride 0, so a diagonal offset on a one-row image links pixels in the row |
| C14 | with an asymmetric kernel the partition depends on the order |
| C15 | "islands of the same label" are not separated: any non-zero value is foreground |
| C20 | `labels_reorder`: negative labels index a vector; the empty image dereferences `max_element` of an empty range |
| C25 | periodic `dilate`: labels of pixels at the boundary change with more iterations (pad copied back over them) |
| C26 | the assertion of `dilate` compares `max(f) <= iterations.size() + 1`, too weak by two |
| C29 | `path(x, x)`: endless loop in 1-d (not the origin), out of range in 2-d, uninitialised in the other modes |
| C31 | `actual`/`full` from a point that is not the origin can miss the end point and never return |
| C36 | periodic statistics pad the masks with 0: masked pixels count when seen through the boundary |
| C40 | `L` with a one-pixel region gives 0; with an axis of two pixels, `actual`/`full` are undefined |
| C41 | `W2c`: `q++` is unconditional, so the collapse at the cluster edge never happens: only the centre is skipped |
| C42 | `W2c`: the third index uses `m_pad[1][0]`: writes in the wrong place or outside |
| C48 | periodic `center` of balanced positions is 0 wherever they are |
| C100 | ... nor does it follow a rolled image |
| C101 | `full` passes a corner along the first axis first, `Bresenham` rounds halfway points away from the start: not the same path back |
| C48, C58 | periodic `center_of_mass`: weights with a negative total can give the length of the box instead of 0; weights that cancel give a multiple of an eighth of the box or NaN |
| C53 | `Structure.add_sample` in 2-d never writes `[0, s:]` and `[s:, 0]` (uninitialised memory), and multiplies the wrong pairs in the mixed quadrants |
| C54 | Python: `ClusterLabeller.size` is bound to `shape` |
| C72 | with masks on periodic images, exchanging the images does not mirror S2, C2, heightheight (cause as C36) |
| C75 | Python: `variance=False` by default, and `variance()` of `heightheight` then returns NaN without an error |
| C77 | Python: unmasked `S2`, `W2`, `W2c` have the `int` overload first, so float32 images, an int with a float64 image, or a float64 image with int64 labels are truncated to integers |
| C94 | Python: `dilate(f, kernel)` by position takes the kernel of a one-dimensional image for the list of iterations, and `dilate(f, n)` takes the number for a kernel, unless the arrays are int32 |
| C95 | Python: `clusters` truncates its image to integers: pixels between -1 and 1 are background |
| C98 | Python: fractional positions of `path` and `dummy_circles`, and fractional labels of `labels_centers*`, are truncated to integers without an exception |
| C108 | Python: `W2c(roi, clusters, centers, f, False)` takes the flag for the mask (undefined behaviour); `W2` and `heightheight` can take a mask of one pixel for `periodic` |
| C79 | `S2`, `W2`, `heightheight`: a NaN in a masked pixel, or an overflowing product with it, makes the result NaN (the mask is a factor 0) |
| C80 | rounding: the order of the realizations matters (2^53, 1, -2^53) |
| C82 | rounding: three pixels of 0.1 have mean 0.10000000000000002 and a negative variance |
| C104 | rounding: a circle of radius 2^26 + 1 covers a pixel that is too far away |
| C106 | rounding: the center of one position at the end of a box of length 115 lies outside, for every correctly rounded library |
| C84 | `actual`/`full` take crossings less than 1e-6 apart for one: from 708 pixels on a pixel on the line is skipped (`actual`), or one off the line visited (`full`) |
| C87 | `L` of an image without background is one only if the image is periodic: walks that leave the image count as blocked, while the normalisation counts all pixels (at offset 1 of three pixels: 2/3) |
| C88 | `L` at opposite offsets differs in two dimensions, also for periodic images: the Bresenham path of the way back passes through other pixels |
| C60, C92 | the mixed entries of `Structure` in 2-d depend on the origin of a periodic sample, and are not the transform of its correlation (cause as C53) |
| C111 | the variance of entries that are never written (cause as C53) |
| C124 | labels_sizes counts in the value type of the labels (256 pixels of `uint8_t` give size 0); labels_prune of `int8_t` with 128 labels gives a negative label; labels_rename takes a label that its table cannot hold for another one; labels_reorder reads out of bounds if the largest label is the largest value of a 32-bit type |
| C125 | the center of a label of a periodic image that balances (two opposite pixels) is not mirrored with the image |
| C126 | `Bresenham` overflows for pixels 2^30 or more apart; a circle that is not periodic overflows if its box leaves the range of `int`, even if none of its pixels do |
| C127 | `clusters` returns `int`: with 2^31 clusters or more there are negative labels |
| C128 | flipping the columns of a two-dimensional sample does not flip the frequencies along them (the entries of mixed frequencies are wrong, C53) |
| C130 | `Structure.add_sample` truncates the rounded powers of integer samples: one unit in the last place of the transform can make a power too small by one |
| C131 | the documented use of `W2c` (docs/examples/W2c.py) silently leaves out clusters that do not contain the pixel of their center, clusters whose center pixel is that of a later one, and the first cluster if there is no background (`np.unique(labels)[1:]`); in a periodic image it clips a center in the last half pixel to the last pixel, the nearest is the first |
| C132 | without assertions (the default for users of the headers) a mask, clusters or centers that are smaller than the image are read outside their end |
| C133 | a cluster that is symmetric about the first pixel of a periodic axis can be given the last pixel as center, by rounding alone |
| C134 | from Python, `labels_rename`, `labels_prune`, `labels_reorder` and `add_image` of an array that is not in row-major order put the labels at other pixels without an error; `labels_map` of two arrays of different order pairs unrelated pixels; a reversed view is read outside its memory |
| C135 | `labels` of a Python labeller is its internal array: it changes with later calls, and writing to it corrupts the labeller |
| C136 | `path` in the modes `actual` and `full` never returns unless the line passes through the pixel of the origin, and otherwise gives the pixels of the line shifted by the first point |
| C146 | `q` is the nearest double to each frequency, -1/2 for even sizes, equal norms give equal `qnorm` | `fftfreq` multiplies integers by a rounded 1/n: not nearest with 10 points, above -1/2 with 98; the norms of (3, 4) and (5, 0) differ with 11 by 11 points, so `numpy.unique(qnorm)` splits rings |
| C147 | with lengths of pixels, equal distances give equal doubles | squares of rounded products: with pixels of 0.7, (3, 4) and (0, 5) differ in the last digit |
| C123 | a label of a periodic image can come apart when it is dilated (`[0,1,0,2,0]`, two iterations, gives `[2,1,2,2,1]`); in three dimensions the default kernel crosses edges, so that a label can be in two pieces that share no face |
| C121 | dilation with a kernel that skips pixels depends on the margin: a label can leave the image and come back |
| C120 | a masked periodic image repeated has other results (the mask of the second pixel is ignored across the boundary), as has one with negative weights |
| C119 | `W2c` of an image as a layer differs (or has undefined behaviour) unless the region is even sided; the default kernel of `dilate` in three dimensions also reaches the diagonals of a layer |
| C117 | `L` off the axes and `W2c` depend on the size of the region: with a larger region other paths pass the same element |
| C116 | Without assertions, `mean` with a mask of another shape throws after it has locked the ensemble: `variance()` no longer throws, and `result()` of `heightheight` is no longer the root |
| C115 | `L` of a flipped image is not the flipped `L` if the region of interest is even along that axis; `L` with `full` is not symmetric in the axes |
| C114 | `W2c`: the mask is padded with 0 although the comment announces masked surroundings: for images that are not periodic, zeros from outside the image count in the average |
| C112 | `Structure._allocate` lets the base class allocate before it asserts that the axes are all even or all odd: after such an exception the object only accepts samples of the refused shape |
| C110 | `L` with the default path (or `actual`) can exceed C2 of `clusters`: its steps may be diagonal, while clusters are joined by faces only |
| C93 | `Structure.add_sample` uses `np.empty_like(data)`: for integer images the powers are rounded down to integers |
| C59 | `dummy_circles(shape)` divides by zero or draws from an empty range for axes below twenty pixels |
