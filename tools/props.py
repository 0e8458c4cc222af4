#!/usr/bin/env python3
"""Generates /verif/properties.jsonl (one property per line)."""
import json
H = "include/GooseEYE/GooseEYE.h"
D = "include/GooseEYE/detail.hpp"
E = "include/GooseEYE/"
P = []
def p(id, title, statement, quantifier, why, *anchors):
    P.append(dict(id=id, title=title, statement=statement, quantifier=quantifier,
                  why_tests_cant=why, anchors=list(anchors)))

# ------------------------------------------------------------------ clusters
p("C01", "clusters() labels exactly the connected components",
  "For every 1-d, 2-d or 3-d image, periodic or not, the array returned by clusters() is 0 exactly on the zero pixels of the image, and two foreground pixels carry the same label if and only if they are joined by a chain of foreground pixels in which each is a direct (face) neighbour of the next.",
  "all shapes of rank 1 to 3 (including axes of length 1 and 2), all images, both periodicity modes",
  "Labels are merged lazily through a linked list and a renumbering table; a wrong merge shows only for particular cluster geometries and scan orders, of which there are unboundedly many.",
  f"{H}: clusters, ClusterLabeller::add_image, ClusterLabeller::label_impl, ClusterLabeller::merge, ClusterLabeller::prune")
p("C02", "clusters() numbers the clusters 1..n in row-major order of first appearance",
  "The non-zero labels returned by clusters() are exactly 1..n with n the number of clusters, and cluster a has a smaller number than cluster b if and only if the first pixel of a (in row-major order) comes before the first pixel of b. Hence the output is completely determined by the image.",
  "all shapes of rank 1 to 3, all images, both periodicity modes",
  "Requires that no gap and no order inversion can arise from any sequence of merges.",
  f"{H}: clusters, ClusterLabeller::prune, ClusterLabeller::merge")
p("C03", "A labeller's foreground is exactly what was added since the last reset",
  "After any sequence of add_image, add_points, add_sequence, prune and reset calls, labels() is non-zero exactly at the pixels added since construction or the last reset.",
  "all shapes, kernels, call histories of any length",
  "Quantifies over all histories.",
  f"{H}: ClusterLabeller::add_image, add_points, add_sequence, prune, reset, labels")
p("C04", "A labeller's partition is always the connected components of what was added",
  "After any history of calls, two labelled pixels have equal labels if and only if they are connected through labelled pixels that are neighbours under the kernel (kernel symmetric about its centre, and within the index range the implementation supports).",
  "all shapes of any rank, all symmetric kernels in range, all call histories",
  "Quantifies over all incremental histories; each call starts from the renumbering state left by the previous ones.",
  f"{H}: ClusterLabeller::label_impl, merge_detail, apply_merge, get_compare_default, get_compare_2d_1n, get_compare_2d_n1")
p("C05", "The partition does not depend on order or batching",
  "Two labellers of the same shape and kernel that received the same set of pixels, in any order, split over any calls (images, point lists, sequences, with prunes in between), hold the same partition.",
  "all pairs of histories with equal pixel sets",
  "Exponentially many orderings and batchings.",
  f"{H}: ClusterLabeller")
p("C06", "No labeller call reads or writes out of bounds, nor loops for ever",
  "For every legal input (images of the right shape, points inside the image) every public call of a labeller terminates normally: the label table never overflows, and the internal list traversals end.",
  "all shapes, kernels in range, call histories",
  "Absence of out-of-bounds accesses and of infinite loops must hold for every reachable internal state.",
  f"{H}: ClusterLabeller::merge_detail, private_renumber, label_impl, prune, add_image, add_points, add_sequence")
p("C07", "Existing labels are kept; a merged cluster takes the smallest of its labels",
  "After an add call, a cluster that contains previously labelled pixels carries the smallest label those pixels had before the call, and a cluster made only of new pixels carries a label that no pixel had before the call.",
  "all reachable labeller states and all add calls",
  "Must hold for arbitrary merge cascades inside one call.",
  f"{H}: ClusterLabeller::add_image, add_points, merge")
p("C08", "prune() renumbers to 1..n and changes nothing else",
  "After prune() the labels in use are exactly 1..n with n the number of clusters, the background is unchanged, the partition is unchanged, and the relative order of the labels is unchanged. A second prune() changes nothing.",
  "all reachable labeller states",
  "prune relies on the renumbering table being in a consistent state after any history.",
  f"{H}: ClusterLabeller::prune")
p("C09", "reset() makes a labeller as good as new",
  "After reset(), any further sequence of calls gives the same labels and the same return values as on a freshly constructed labeller of the same shape and kernel.",
  "all reachable states, all subsequent call sequences",
  "Stale state could show only after particular continuations.",
  f"{H}: ClusterLabeller::reset")
p("C10", "add_sequence() labels like add_points() and reports every new or merged cluster",
  "add_sequence(idx) leaves the same labels as add_points(idx). Its return value is strictly increasing, ends with len(idx), and contains every position at which a new cluster is started or clusters are merged.",
  "all reachable labeller states and all non-empty legal sequences",
  "Depends on the interleaving of new, joined, merged and revisited pixels in the sequence.",
  f"{H}: ClusterLabeller::add_sequence")
p("C11", "add_sequence() reports only positions of new or merged clusters",
  "Apart from the final len(idx), every index returned by add_sequence() is a position at which a new cluster is started or clusters are merged.",
  "all reachable labeller states and all legal sequences",
  "Only sequences that revisit already labelled pixels can violate it.",
  f"{H}: ClusterLabeller::add_sequence")
p("C12", "The default neighbourhood equals kernel::nearest",
  "A labeller constructed without kernel behaves like one constructed with kernel::nearest of the same rank.",
  "ranks 1, 2, 3; all shapes and histories",
  "Equality of behaviour over all images.",
  f"{H}: ClusterLabeller constructors, kernel::nearest, detail::kernel_to_dx")
p("C13", "Every kernel entry is honoured as an offset",
  "For a labeller with a custom kernel, pixel q counts as neighbour of pixel p exactly when the kernel entry at the offset from p to q is set (modulo the shape for a periodic labeller, and only inside the image for a non-periodic one).",
  "all shapes, kernels and pixel pairs",
  "Special-cased index arithmetic for rank 1, rank 2, and rank-2 images with one row or column; unsigned wrap-around.",
  f"{H}: ClusterLabeller::get_compare_default, get_compare_2d_1n, get_compare_2d_n1, detail::kernel_to_dx")
p("C14", "The partition is independent of insertion order for any kernel",
  "For any kernel (also one that is not symmetric about its centre), the partition of a labeller depends only on the set of pixels added.",
  "all kernels, all histories",
  "Needs all insertion orders.",
  f"{H}: ClusterLabeller::label_impl")
p("C15", "Clusters are islands of equal value",
  "clusters() separates touching pixels that have different non-zero values (theory_clusters.rst: 'islands of connected pixels with the same value').",
  "all images",
  "Universal over images.",
  f"{H}: clusters, ClusterLabeller::add_image", "docs/theory_clusters.rst")
# ------------------------------------------------------------------ labels
p("C16", "labels_map followed by labels_rename reproduces the target",
  "labels_rename(a, labels_map(a, b)) equals b for all images a, b of equal size in which pixels with equal a also have equal b. The rows of labels_map(a, b) are the distinct labels of a in increasing order, each with the b-label of its first occurrence.",
  "all pairs of label images of equal size",
  "Universal over images and label values (including negative labels).",
  f"{H}: labels_map, labels_rename")
p("C17", "labels_rename applies the table pixel by pixel",
  "labels_rename(labels, rename) replaces each label by the second entry of the first row of the table that names it. A label missing from the table raises an exception when assertions are enabled and becomes 0 otherwise.",
  "all images and tables (duplicates included)",
  "Universal over images and tables.",
  f"{H}: labels_rename")
p("C18", "labels_prune renumbers to 1..n preserving order, partition and background",
  "labels_prune keeps 0 where the image is 0, maps the distinct non-zero labels (negative ones included) monotonically onto 1..n, and is idempotent.",
  "all label images",
  "Three code branches depending on the presence of 0 and of negative labels.",
  f"{H}: labels_prune")
p("C19", "labels_reorder maps label order[i] to i",
  "If order lists every label of the image exactly once (no negative labels), labels_reorder(labels, order) replaces order[i] by i everywhere; reordering by the identity is the identity, and the partition is preserved.",
  "all non-negative label images and all orders",
  "Universal over images and permutations.",
  f"{H}: labels_reorder")
p("C20", "labels_reorder works for every label image that labels_prune accepts",
  "With assertions enabled, labels_reorder either throws or returns normally for every image and order; in particular labels may be negative, as for the other label functions.",
  "all label images and orders",
  "Out-of-bounds access for particular inputs only.",
  f"{H}: labels_reorder")
p("C21", "labels_sizes counts pixels",
  "labels_sizes(labels) lists the distinct labels in increasing order with the number of pixels carrying each; the sizes sum to the number of pixels; labels_sizes(labels, names) gives the count of each requested name (0 if absent).",
  "all label images and name lists",
  "Universal over images.",
  f"{H}: labels_sizes, detail::labels_sizes_impl")
# ------------------------------------------------------------------ dilate
p("C22", "dilate never alters an already labelled pixel",
  "Every pixel that is non-zero in the input keeps its value in the output of dilate, for any kernel, iteration counts and periodicity; the shape is unchanged.",
  "all images of rank 1..3, kernels, iteration counts, both periodicity modes",
  "Padding is copied back into the image in periodic mode; a clash is visible only for particular label layouts.",
  f"{H}: dilate, detail::periodic_copy")
p("C23", "The dilated foreground is the iterated Minkowski sum",
  "dilate(f, kernel, n, periodic) is non-zero exactly at the pixels that can be reached from a foreground pixel by at most n steps, each step being an offset of a set kernel entry (wrapping around in periodic mode, staying inside the image otherwise).",
  "all images with non-negative labels, kernels that fit the image, iteration counts n",
  "Induction over iterations and all images.",
  f"{H}: dilate, detail::periodic_copy_above_to_below, detail::periodic_copy_below_to_above")
p("C24", "Each label spreads from its own pixels, at most its own number of iterations",
  "A pixel that has label l in the output of dilate is reachable from an input pixel with label l in at most iterations[l] kernel steps.",
  "all images, kernels, per-label iteration counts, both periodicity modes",
  "Per-label counters and clashes between labels.",
  f"{H}: dilate")
p("C25", "More iterations never change a label that was already assigned",
  "dilate(f, kernel, n+1, periodic) agrees with dilate(f, kernel, n, periodic) on the pixels that are non-zero in the latter.",
  "all images, kernels, n, both periodicity modes",
  "Only multi-label periodic images with clashes across the boundary can violate it.",
  f"{H}: dilate, detail::periodic_copy")
p("C26", "dilate with assertions enabled never reads outside the iterations list",
  "With assertions enabled, every call of dilate either throws or stays inside the list of iterations per label.",
  "all images and iteration lists",
  "The guard must be exactly right for every label/list-length combination.",
  f"{H}: dilate")
# ------------------------------------------------------------------ path
p("C27", "Bresenham path: endpoints, length and connectivity",
  "path(x0, x1) for distinct end points of equal rank 1..3 starts at x0, ends at x1, has max_i |x1_i - x0_i| + 1 rows, and consecutive rows differ by at most one in every coordinate, never moving away from x1.",
  "all distinct pairs of pixel coordinates of rank 1..3",
  "Universal over all coordinate pairs; the stop criterion looks at one axis only.",
  f"{D}: path::bresenham", "include/GooseEYE/GooseEYE.hpp: path")
p("C28", "Bresenham path stays within half a pixel of the straight line",
  "At every row of path(x0, x1) each coordinate differs from the straight line between the end points (parametrised by the dominant axis) by at most one half.",
  "all distinct pairs of pixel coordinates of rank 1..3",
  "Universal over coordinates.",
  f"{D}: path::bresenham")
p("C29", "path of a point to itself is that single point",
  "path(x, x, mode) returns exactly one row, x, in every mode and rank.",
  "all coordinates, all modes, ranks 1..3",
  "Degenerate input: termination itself is at stake.",
  f"{D}: path::bresenham, path::actual, path::full")
p("C30", "actual/full paths from the origin reach the target through adjacent pixels",
  "path(0, x1, actual) starts at 0, ends at x1, terminates, never overshoots, and consecutive rows differ by at most one in every coordinate; path(0, x1, full) moreover changes exactly one coordinate per row.",
  "all non-zero targets of rank 1..3 with coordinates below one million in absolute value",
  "Termination is by exact coincidence with the target; universal over targets.",
  f"{D}: path::actual, path::full")
p("C31", "paths are translation invariant",
  "path(x0, x1, mode) is path(0, x1 - x0, mode) shifted by x0.",
  "all coordinate pairs, all modes",
  "Universal over coordinates.",
  f"{D}: path::bresenham, path::actual, path::full")
p("C56", "actual/full paths visit exactly the pixels met by the line",
  "For a line through the origin, every row of path(x0, x1, actual|full) is a pixel that the straight line from x0 to x1 meets (inside or on its boundary), and every pixel whose inside the line meets is a row.",
  "all distinct end points of rank 1..3 whose connecting line passes through the origin (in particular x0 = 0), at most 707 pixels apart along each axis",
  "Universal over end points; ties between crossings are decided with a tolerance.",
  f"{D}: path::actual, path::full")
# ------------------------------------------------------------------ ensemble
p("C32", "The region of interest is centred and complete",
  "For every axis of length n the padding before and after add up to n - 1, differ by at most one with the larger at the end, and distance(axis) of the pixel with index k along that axis is exactly k minus the padding before; it is zero exactly at the centre pixel, for roi of rank 1..3.",
  "all roi shapes of rank 1..3 and all axes",
  "Universal over shapes; the axis is remapped when the roi is promoted to 3-d.",
  f"{D}: pad_width, atleast_3d_axis", E+"Ensemble.hpp: Ensemble::distance")
p("C33", "distance() is the Euclidean norm of the per-axis distances",
  "distance() squared equals the sum of the squared per-axis distances; distance(h) scales each axis by its pixel size.",
  "all roi shapes, pixel sizes",
  "Universal over shapes.",
  E+"Ensemble.hpp: Ensemble::distance")
p("C34", "S2 is the normalised 2-point correlation (non-periodic, masked)",
  "After S2(f, g, fmask, gmask) on a non-periodic ensemble, data_first at offset d is the sum of f(x) g(x+d) over all pixels x with both x and x+d inside the image and unmasked, norm is the number of such pairs, and result is their quotient (0 if there is no pair).",
  "all images of rank 1..3, masks, roi shapes",
  "Universal over images; padding and windows must line up for every even/odd roi.",
  E+"Ensemble_S2.hpp: Ensemble::S2", E+"Ensemble.hpp: Ensemble::result")
p("C35", "S2 is the normalised 2-point correlation (periodic, unmasked)",
  "After S2(f, g) on a periodic ensemble (roi half-width not larger than the image), data_first at offset d is the sum over all pixels x of f(x) g(x+d) with wrap-around, and norm is the number of pixels.",
  "all images of rank 1..3, all roi that fit",
  "Universal over images and shapes.",
  E+"Ensemble_S2.hpp: Ensemble::S2")
p("C36", "Masked pixels never influence a statistic",
  "Changing the value of f or g at a masked pixel changes neither data_first nor norm of S2, C2, W2 and heightheight, periodic or not.",
  "all images, masks, both periodicity modes",
  "Universal over images and masks.",
  E+"Ensemble_S2.hpp", E+"Ensemble_C2.hpp", E+"Ensemble_W2.hpp", E+"Ensemble_heightheight.hpp")
p("C37", "C2 is the 2-point cluster probability",
  "data_first of C2 at offset d is the number of unmasked pixel pairs (x, x+d) with f(x) = g(x+d) non-zero; norm is the number of unmasked pairs.",
  "all label images, masks (non-periodic), roi shapes",
  "Universal over images.",
  E+"Ensemble_C2.hpp: Ensemble::C2")
p("C38", "W2 is the weighted correlation",
  "data_first of W2 at offset d is the sum of w(x) f(x+d) over pixels x with x+d unmasked, norm is the sum of w(x) over the same pixels.",
  "all images, weights, masks (non-periodic), roi shapes",
  "Universal over images.",
  E+"Ensemble_W2.hpp: Ensemble::W2")
p("C39", "heightheight is the mean squared height difference",
  "data_first of heightheight at offset d is the sum of (f(x+d) - f(x))^2 over unmasked pairs and norm the number of pairs; result squared is their quotient; the result is 0 at offset 0 and, for periodic images, symmetric in d.",
  "all images, masks, roi shapes",
  "Universal over images.",
  E+"Ensemble_heightheight.hpp: Ensemble::heightheight")
p("C40", "L counts unobstructed pixel paths",
  "data_first of L at offset d is the number of (path, pixel) combinations for which every pixel from the start up to offset d along the path lies in the phase; norm is the number of such combinations in total. Hence 0 <= result <= 1, and result at the centre is the volume fraction.",
  "all binary images of rank 1..3, roi shapes, Bresenham paths",
  "Universal over images and roi shapes; index arithmetic stays in range.",
  E+"Ensemble_L.hpp: Ensemble::L")
p("C41", "W2c skips the cluster before it starts counting",
  "W2c collapses each cluster: along every path the first recorded pixel is the first one outside the cluster that the centre belongs to.",
  "all cluster images",
  "The counter logic must hold for clusters of every extent.",
  E+"Ensemble_W2c.hpp: Ensemble::W2c", "docs/theory_W2.rst")
p("C42", "W2c stays inside the region of interest",
  "W2c never writes outside the roi-shaped result, for every roi of rank 1..3.",
  "all roi shapes and images",
  "Only non-cubic 3-d roi shapes can violate it.",
  E+"Ensemble_W2c.hpp: Ensemble::W2c")
p("C43", "Ensembles are additive and order independent",
  "The raw data (data_first, data_second, norm) after adding several realizations is the sum of the raw data of each realization alone, so any order of the same realizations gives the same result; reading result() does not change it.",
  "all sequences of realizations of one measure",
  "Universal over sequences.",
  E+"Ensemble.hpp", E+"Ensemble_S2.hpp", E+"Ensemble_mean.hpp")
p("C44", "mean and variance are the sample mean and the unbiased sample variance",
  "After any sequence of (masked) mean() calls result() is the arithmetic mean of all unmasked values and variance() the sum of squared deviations from it divided by (number of values - 1).",
  "all sequences of images and masks with at least two unmasked values",
  "Universal over data; variance is computed from raw moments.",
  E+"Ensemble_mean.hpp: Ensemble::mean", E+"Ensemble.hpp: Ensemble::variance")
p("C45", "An ensemble is locked to one measure",
  "With assertions enabled, once one measure has been added, calling any other measure throws and leaves the ensemble unchanged, in any history of calls. variance() throws unless the measure is mean or heightheight.",
  "all call histories",
  "Universal over histories.",
  E+"Ensemble.hpp", E+"Ensemble_S2.hpp", E+"Ensemble_C2.hpp", E+"Ensemble_L.hpp")
p("C46", "S2 of a binary image is a probability with the right limits",
  "For binary f the result of S2(f, f) lies in [0, 1] everywhere, is at offset 0 the volume fraction, is largest at offset 0 (periodic), and is symmetric under d -> -d (periodic).",
  "all binary images and roi that fit",
  "Universal over images.",
  E+"Ensemble_S2.hpp", "docs/theory_S2.rst")
# ------------------------------------------------------------------ centers
p("C47", "center of a non-periodic set is the arithmetic mean, inside its bounding box",
  "center(shape, positions, periodic=False) is per axis the mean of the positions and lies between their minimum and maximum; center_of_mass with equal positive weights equals center; no position gives zeros.",
  "all position lists and weights",
  "Universal over positions.",
  f"{H}: center, center_of_mass")
p("C48", "center of a periodic set",
  "center(shape, positions, periodic=True) lies in [0, shape] per axis, of a single position inside the box is that position, is invariant under shifting any position by a multiple of the shape, does not depend on the order of positions, and commutes with translation modulo the shape. center_of_mass obeys the same rule for weights of any sign whose total is not zero.",
  "all position lists",
  "Universal over positions; inverse trigonometric branch cuts.",
  f"{H}: center, center_of_mass")
p("C49", "labels_centers is center applied to each named label",
  "Row i of labels_centers(labels, names) equals center() of the positions of the pixels that carry names[i] (zeros if there are none); row i of labels_centers_of_mass uses the weights at those pixels.",
  "all label images and name lists",
  "Universal over images.",
  f"{H}: labels_centers, labels_centers_of_mass, detail::PositionList")
# ------------------------------------------------------------------ misc
p("C50", "dummy_circles draws exactly the union of discs",
  "dummy_circles(shape, row, col, r, periodic) is 1 exactly at the pixels whose offset from some circle centre has Euclidean length at most r - 1 (modulo the shape when periodic, inside the image otherwise) and 0 elsewhere.",
  "all shapes, circle lists and both periodicity modes",
  "Universal over circles.",
  f"{H}: dummy_circles")
p("C51", "kernel::nearest contains exactly the face neighbours",
  "kernel::nearest(ndim) is 1 exactly at the centre and at the 2*ndim entries that differ from it by one in a single coordinate.",
  "ndim = 1, 2, 3",
  "Finite, but relied on by every default dilation; stated for all entries.",
  f"{H}: kernel::nearest")
p("C52", "Structure (1-d): every stored frequency is u(q) u(-q)",
  "For every sample length n, add_sample stores at each frequency index k the product of the transform at k and at -k (index n - k), except at the Nyquist index of even n, which is the only entry not written.",
  "all n >= 1 and all k",
  "Slice arithmetic for every n, even and odd.",
  "python/GooseEYE/__init__.py: Structure.add_sample")
p("C53", "Structure (2-d): every stored frequency is u(q) u(-q)",
  "For every shape, add_sample stores at each pair of frequency indices (i, j) the product of the transform at (i, j) and at (-i, -j), except on the Nyquist row and column, and every other entry is written.",
  "all shapes and frequency pairs",
  "Slice arithmetic for all shapes.",
  "python/GooseEYE/__init__.py: Structure.add_sample")
p("C54", "ClusterLabeller.size is the number of pixels (Python)",
  "The Python property size of a cluster labeller is the product of its shape.",
  "all shapes",
  "Universal over shapes.",
  "python/main.cpp: allocate_ClusterLabeller", f"{H}: ClusterLabeller::size")
p("C55", "version() carries no quotes",
  "version() returns the configured version string with every double quote removed and all other characters kept in order.",
  "all version strings",
  "Universal over strings.",
  "include/GooseEYE/version.hpp: version, detail::unquote")
p("C57", "periodic center of a compact set lies within it",
  "If along an axis all positions lie, possibly across the boundary, in a window shorter than half the box, center and center_of_mass (non-negative weights) return a point of that window modulo the box.",
  "all position lists, weights and windows",
  "Universal over real positions.",
  f"{H}: center, center_of_mass")
p("C58", "weights of center_of_mass are multiplicities",
  "center_of_mass does not change when all weights are multiplied by the same positive number (a negative one gives the same mean, and the same point of a periodic box) or when positions and weights are reordered together, and for whole-number weights equals center of the list in which every position is repeated as often as its weight says.",
  "all position lists and weights, periodic or not",
  "Universal over positions and weights.",
  f"{H}: center_of_mass")
p("C59", "dummy_circles with random circles always draws a perturbed grid",
  "For every shape and every sequence of random numbers, dummy_circles(shape, periodic, seed) returns the drawing of (rows/20) x (columns/20) circles, each displaced from its grid point by at most half the spacing and with a radius between zero and twice the default radius.",
  "all two-dimensional shapes, all sequences the generator can return, both periodicity modes",
  "Universal over random sequences and shapes.",
  f"{H}: dummy_circles")

p("C60", "Structure does not depend on where a sample starts, and obeys the sum rule",
  "Moving every sample cyclically around the periodic box, each by its own amount, does not change mean() of Structure; for an odd number of points the entries of mean() add up to the mean sum of squares of the samples.",
  "all histories of samples, all shifts",
  "Universal over real data and histories.",
  "python/GooseEYE/__init__.py: Structure.add_sample")
p("C61", "Structure.q and qnorm label the entries of mean()",
  "q() gives at index k the frequency k/n below n/2 and (k-n)/n from there on, opposite indices carry opposite frequencies, and qnorm lists exactly the norms of the non-negative frequencies below n/2, aligned with the first entries of mean().",
  "all shapes of one and two dimensions",
  "Index arithmetic for every n, even and odd.",
  "python/GooseEYE/__init__.py: Structure.q, Structure.qnorm")
p("C62", "repr of a labeller shows its rank and shape unambiguously",
  "repr(ClusterLabeller(shape)) is the class name with the rank followed by the shape as a bracketed list; labellers of different shapes have different representations.",
  "all shapes",
  "Injectivity over all shapes.",
  f"{H}: ClusterLabeller::repr, detail::shape_to_string, detail::get_namespace")
p("C63", "the Python factory returns the labeller that was asked for",
  "ClusterLabeller(shape, periodic[, kernel]) in Python returns a labeller of the rank of the shape, with the periodicity and kernel asked for, for ranks 1 to 3, and raises for any other rank, for a size that is negative or does not fit size_t, and for a kernel of another rank; the classes of the module that it chooses from are those of ranks 1 to 3 with and without periodicity, and each can be constructed directly with the same result.",
  "all shapes, periodicities and kernels",
  "Universal over shapes.",
  "python/GooseEYE/__init__.py: ClusterLabeller", "python/main.cpp: allocate_ClusterLabeller, PYBIND11_MODULE")
p("C64", "How pixels are batched over calls does not change a single label",
  "Adding the same pixels in the same order gives exactly the same labels, number by number, however they are divided over calls of add_image, add_points and add_sequence (an image counts as its non-zero pixels in row-major order).",
  "all labellers (any rank, kernel, periodicity), all states reached by any history, all divisions of a sequence over calls",
  "The merge table is flushed at the end of each call: the number of states in which a flush can happen is unbounded.",
  f"{H}: ClusterLabeller::add_image, add_points, add_sequence, apply_merge")

p("C65", "Adding foreground or making the box periodic never splits a cluster",
  "If every foreground pixel of one image is foreground in another of the same shape, two pixels with the same label in clusters of the first have the same label in clusters of the second; the same holds between the non-periodic and the periodic labelling of one image. It also holds between two labellers with symmetric kernels after any histories, if the pixels and the offsets in the kernel of the first are among those of the second and the second is periodic if the first is.",
  "all pairs of images of rank 1 to 3, both periodicity modes",
  "Relates two unbounded inputs.",
  f"{H}: clusters")
p("C66", "Labels are a fixed point of labelling",
  "clusters of the labels returned by clusters returns those labels, labels_prune returns them unchanged too, and clusters depends only on which pixels are non-zero.",
  "all images of rank 1 to 3, both periodicity modes",
  "Universal over images.",
  f"{H}: clusters, labels_prune")
p("C67", "Clusters are carried along when the image is moved",
  "Rolling a periodic image, flipping any image along any axes, or transposing it, moves its clusters in the same way: pixels have equal labels after the move if and only if they had equal labels before, and background stays background.",
  "all images of rank 1 to 3, all rolls, flips and the transpose",
  "Relates two unbounded inputs; the labels themselves change.",
  f"{H}: clusters")
p("C68", "Dilating is a growing process",
  "dilate with zero iterations returns the image; n iterations followed by m give the foreground of n+m; more foreground, more iterations or a periodic box never give less foreground; rolling a periodic image rolls the dilated foreground; in three dimensions the default kernel reaches the pixels within n face-or-edge steps.",
  "all images of rank 0 to 3, all 0/1 kernels and numbers of iterations",
  "Relates pairs of runs over unbounded inputs and iterations.",
  f"{H}: dilate")
p("C69", "Two-point statistics follow the images when these are moved",
  "S2, C2, W2 and heightheight are unchanged when all images are rolled in the periodic box; flipping or transposing images and masks flips or transposes the data, normalisation and result.",
  "all images and masks, all roi, all rolls, flips and the transpose",
  "Relates two unbounded inputs.",
  f"{H}: Ensemble::S2, C2, W2, heightheight")

p("C70", "heightheight depends on height differences only",
  "Adding a constant to an image does not change heightheight (sums, normalisation, result); multiplying it by k multiplies the result by |k|; on a periodic image without masks the square of the result at an offset is twice S2 at zero minus S2 at the offset.",
  "all images and masks of rank up to 3, all roi, constants and factors, both periodicity modes",
  "Relates two runs on unbounded inputs.",
  f"{H}: Ensemble::heightheight, Ensemble::S2")
p("C71", "S2 is bilinear",
  "S2 of a weighted sum of two images with a third is the weighted sum of their S2, in either argument, with the same normalisation.",
  "all images, masks, weights and roi, both periodicity modes",
  "Relates three runs on unbounded inputs.",
  f"{H}: Ensemble::S2")
p("C72", "Exchanging the two images mirrors S2 and C2",
  "S2 and C2 of (g, f), with masks exchanged too, at an offset equal those of (f, g) at the opposite offset: sums, normalisation and result. heightheight is symmetric.",
  "all images, masks and roi, both periodicity modes",
  "Relates two runs on unbounded inputs.",
  f"{H}: Ensemble::S2, Ensemble::C2, Ensemble::heightheight")
p("C73", "W2 is a weighted average",
  "W2 of a constant image is that constant wherever the weights seen add up to something positive; multiplying non-negative weights by a positive factor does not change the result; with all weights one W2 equals S2 of ones with the image; W2 is linear in the image.",
  "all weights, images, masks and roi, both periodicity modes",
  "Universal over real data.",
  f"{H}: Ensemble::W2, Ensemble::S2")
p("C74", "C2 depends on labels only through equality, and is at most S2",
  "Renaming the labels of both images one-to-one (zero stays zero) does not change C2; C2 is at most S2 of the foregrounds and equal to it for 0/1 labels.",
  "all label images, masks, renamings and roi, both periodicity modes",
  "Relates two runs on unbounded inputs.",
  f"{H}: Ensemble::C2, Ensemble::S2")
p("C75", "variance() of heightheight is the spread of the squared differences",
  "After any sequence of heightheight calls, variance() of an Ensemble built with the default arguments is the root of the unbiased sample variance of all squared height differences taken into account at that offset, in C++ and in Python.",
  "all sequences of calls with any images and masks, all roi, both periodicity modes",
  "Universal over histories and real data.",
  f"{H}: Ensemble::variance, Ensemble::heightheight", "python/main.cpp: Ensemble constructor")
p("C76", "The variance flag never changes an average",
  "Two Ensembles that differ in the variance flag only, taken through the same calls, have the same result, data_first and norm, and fail in the same way; the functions for a single image return what an Ensemble with either flag returns after one call.",
  "all sequences of all calls, valid or not; all roi",
  "Universal over histories.",
  f"{H}: Ensemble", "include/GooseEYE/GooseEYE.hpp: S2, C2, W2, W2c, heightheight, L")
p("C77", "Python analyses the images that are passed",
  "For arrays of any numeric dtype, the Python methods and functions mean, S2, C2, W2, W2c, heightheight and L compute the statistic of the values in the arrays (labels and masks being integers).",
  "all arrays of all dtypes, with and without masks",
  "The overload chosen depends on combinations of dtypes.",
  "python/main.cpp: PYBIND11_MODULE (Ensemble and functions)")

p("C78", "The statistics of images of integers are exact in floating point",
  "For images of integers, any sequence of calls of an Ensemble leaves exact sums in data_first, data_second and norm, and result() is the exact statistic correctly rounded (heightheight: the root of that), as long as the number of pixels times the largest term, over all calls, is at most 2^53.",
  "all images of integers, any sequence of calls, any region of interest, periodic or not, any order of summation by xt::sum",
  "That no rounding error builds up must hold for every image and every number of realizations.",
  "include/GooseEYE/Ensemble.hpp: result", "include/GooseEYE/Ensemble_S2.hpp: S2", "include/GooseEYE/Ensemble_C2.hpp: C2", "include/GooseEYE/Ensemble_W2.hpp: W2", "include/GooseEYE/Ensemble_W2c.hpp: W2c", "include/GooseEYE/Ensemble_heightheight.hpp: heightheight", "include/GooseEYE/Ensemble_L.hpp: L", "include/GooseEYE/Ensemble_mean.hpp: mean")
p("C79", "What masked pixels hold does not matter, whatever it is",
  "Two images that agree on the unmasked pixels give the same mean, S2, W2, W2c and heightheight, also if the masked pixels hold NaN (the usual marker of missing data), infinities or very large numbers.",
  "all images of doubles (including NaN and infinities), all masks, all states of the ensemble",
  "Whether a NaN spreads depends on how the mask is applied, and on values that tests do not put under a mask.",
  "include/GooseEYE/Ensemble_mean.hpp: mean", "include/GooseEYE/Ensemble_S2.hpp: S2", "include/GooseEYE/Ensemble_W2.hpp: W2", "include/GooseEYE/Ensemble_W2c.hpp: W2c", "include/GooseEYE/Ensemble_heightheight.hpp: heightheight")
p("C80", "The order of realizations does not matter in floating point",
  "Adding the same realizations to an ensemble in another order gives the same data and the same result().",
  "all sequences of realizations (doubles), all permutations",
  "Floating point addition is not associative: for which realizations the order is immaterial cannot be sampled.",
  "include/GooseEYE/Ensemble.hpp: result", "include/GooseEYE/Ensemble_S2.hpp: S2")

p("C81", "Structure accepts samples of one usable shape, in any order",
  "A Structure accepts a sample, and counts it, if no axis is empty, its axes are all even or all odd, and its shape is that of the samples (or of the shape) given before; otherwise it raises. The order in which samples are added does not change the mean.",
  "all shapes, all samples, all histories and their permutations",
  "Which shapes are refused, and that nothing depends on the order, ranges over all shapes and histories.",
  "python/GooseEYE/__init__.py: Structure")
p("C82", "The mean lies between the extreme values and the variance is not negative",
  "After mean() of any number of images, with or without masks, result() lies between the smallest and the largest unmasked value and variance() is not negative.",
  "all images and masks, any number of realizations; in exact arithmetic and in doubles",
  "Rounding breaks both for some images only: which ones cannot be sampled.",
  "include/GooseEYE/Ensemble.hpp: result, variance", "include/GooseEYE/Ensemble_mean.hpp: mean")

p("C83", "Rounding does not change the paths",
  "path(x0, x1, actual|full) computed in doubles is the path of exact arithmetic: it ends at x1, and its rows are exactly the pixels met by the line.",
  "all end points of rank 1..3 at most 707 pixels apart along each axis whose connecting line passes through the origin, x0 at most 4096 pixels from the origin",
  "Ties between crossings are decided in rounded arithmetic with a tolerance: whether that is ever wrong ranges over all end points.",
  "include/GooseEYE/detail.hpp: path::actual, path::full", "include/GooseEYE/GooseEYE.hpp: path")
p("C84", "actual/full visit exactly the pixels on the line at any distance",
  "For a line through the origin, however long, every pixel whose inside the line meets is a row of path(x0, x1, actual|full), and every row is a pixel the line meets.",
  "all distinct end points of rank 1..3 whose connecting line passes through the origin",
  "Which pixels are skipped depends on how close crossings are: it must hold for every pair of end points.",
  "include/GooseEYE/detail.hpp: path::actual, path::full")
p("C85", "The lineal path function is at most the two-point probability and the volume fraction",
  "For every image f, L(f) at every offset is at most S2 of the indicator of the foreground at that offset, and at most the fraction of foreground pixels.",
  "all images of rank 0..3, regions of interest, path modes, periodic or not",
  "An inequality between two statistics has to hold for every image and every offset.",
  "include/GooseEYE/Ensemble_L.hpp: Ensemble::L", "include/GooseEYE/Ensemble_S2.hpp: Ensemble::S2")
p("C86", "More foreground gives a larger lineal path function",
  "If every foreground (non-zero) pixel of f is a foreground pixel of f', then L(f) <= L(f') at every offset, with the same normalisation; in particular L depends only on which pixels are non-zero.",
  "all pairs of images of the same shape with nested foregrounds, all regions of interest and path modes",
  "Monotonicity relates every pair of nested images.",
  "include/GooseEYE/Ensemble_L.hpp: Ensemble::L")
p("C87", "The lineal path function is defined at every offset, and one without background",
  "The paths from the centre to the border of the region of interest together pass through every element of it, so that the normalisation is a positive multiple of the number of pixels; for an image without background the result is one everywhere.",
  "all images of rank 0..3, regions of interest with more than one pixel, path modes, periodic or not",
  "Whether some element is missed depends on the size of the region of interest in every direction.",
  "include/GooseEYE/Ensemble_L.hpp: Ensemble::L", "include/GooseEYE/detail.hpp: path::bresenham, path::actual, path::full")
p("C88", "In one dimension the lineal path function counts stretches; it decays and is even",
  "In one dimension the result of L at distance t is the fraction of pixels from which all pixels up to distance t are foreground; it does not increase with distance. The values at opposite offsets are the same, in any dimension if the image is periodic.",
  "all one-dimensional images, regions of interest, path modes, distances; for the last part all periodic images",
  "It quantifies over images of all lengths and over all pairs of distances.",
  "include/GooseEYE/Ensemble_L.hpp: Ensemble::L")

p("C89", "Exchanging the phases, and weights, change S2 as they should",
  "For periodic images: S2 of 1 - f and 1 - g is 1 - <f> - <g> + S2(f, g) at every offset (the correlation of the background follows from that of the foreground); W2(w, f) is S2(w, f) / <w>.",
  "all pairs of images of rank 1..3, all regions of interest, all offsets",
  "Identities between two statistics have to hold for every image and offset.",
  "include/GooseEYE/Ensemble_S2.hpp: Ensemble::S2", "include/GooseEYE/Ensemble_W2.hpp: Ensemble::W2")
p("C90", "Correlations of periodic images obey the bounds of correlation functions",
  "S2(f, g)^2 is at most S2(f, f) S2(g, g) at zero offset; the autocorrelation is largest, in absolute value, at zero offset; for a binary image it is at least 2 phi - 1, and phi - S2 obeys the triangle inequality in the offset.",
  "all images of rank 1..3, all regions of interest, all offsets and pairs of offsets",
  "Inequalities have to hold for every image and every pair of offsets.",
  "include/GooseEYE/Ensemble_S2.hpp: Ensemble::S2")
p("C91", "Sum rule of S2",
  "Over a region of interest as large as the periodic images, the average of S2(f, g) over all offsets is the product of the averages of f and g.",
  "all pairs of images of rank 1..3",
  "Whether each pair of pixels is counted exactly once ranges over all shapes.",
  "include/GooseEYE/Ensemble_S2.hpp: Ensemble::S2", "include/GooseEYE/Ensemble.hpp: result")
p("C92", "Structure is the Fourier transform of S2",
  "The structure factor of a set of samples is the discrete Fourier transform of their ensemble-averaged autocorrelation S2 over a region of interest as large as the (periodic) samples (Wiener-Khinchin).",
  "all sets of samples of rank 1 and 2, all frequencies",
  "It relates two independent parts of the library for every set of samples and every frequency.",
  "python/GooseEYE/__init__.py: Structure", "include/GooseEYE/Ensemble_S2.hpp: Ensemble::S2")

p("C93", "Structure of integer images",
  "Adding samples that are arrays of integers (such as the binary images of dummy_circles) gives the structure factor of the same values as floating point numbers.",
  "all samples of integers of rank 1 and 2, all histories and frequencies",
  "How much is lost by a conversion of type depends on the sample and the frequency.",
  "python/GooseEYE/__init__.py: Structure.add_sample")

p("C94", "Python dilate is C++ dilate",
  "dilate(f, kernel, iterations, periodic) in Python, with the arguments passed by name or by position, any of the last three left out, and iterations a number or a list with one number per label, returns what the corresponding C++ overload returns for the same values; calls that ask for nothing (too many arguments, unknown names, no image, negative iterations) raise an exception.",
  "all images, kernels, iterations and dtypes, every way and order of passing arguments",
  "Four overloads, two passes with and without conversion, and every combination of dtypes and argument forms interact.",
  "python/main.cpp: dilate", "include/GooseEYE/GooseEYE.h: dilate")
p("C95", "Python clusters and labels_*: what is passed is what is analysed",
  "In Python, clusters takes every pixel that is not zero as foreground, and clusters, labels_map, labels_rename, labels_prune, labels_reorder and labels_sizes give the result of the C++ functions for the values in the arrays, whatever their dtype.",
  "all arrays of booleans, integers and floating point numbers",
  "The effect of a conversion depends on the values of every pixel.",
  "python/main.cpp: clusters, labels_map, labels_rename, labels_prune, labels_reorder, labels_sizes")
p("C96", "The Python labeller does what the C++ labeller does, and never reads outside its image",
  "Any history of legal calls of a labeller in Python gives what the same history gives in C++; any history at all (images of the wrong shape, indices that are negative or too large, arrays of the wrong rank) returns or raises an exception.",
  "all labellers, all histories of calls, all arrays of indices",
  "Memory safety has to hold after every history, for every index.",
  "python/main.cpp: allocate_ClusterLabeller", "include/GooseEYE/GooseEYE.h: ClusterLabeller::add_image, add_points, add_sequence, legal_points")

p("C97", "Rounding errors of the statistics stay within a few units in the last place per term",
  "For images of any doubles of moderate size, not only integers, mean, S2, W2c and heightheight count exactly, and their sums and averages differ from the exact ones by at most about n roundings of the largest term after n terms; W2 gives the total weight, the weighted sum and the weighted average within about as many roundings. Nothing overflows, and an exception in one is an exception in the other. Of the sum in mean nothing is assumed about the order.",
  "all histories of calls on images and masks, all doubles bounded by M with 2^-400 <= M <= 2^400, all histories of at most 2^50 terms",
  "Every intermediate rounding depends on every value added before it; tests compare a few results with a tolerance.",
  "include/GooseEYE/Ensemble_mean.hpp: Ensemble::mean", "include/GooseEYE/Ensemble_S2.hpp: Ensemble::S2", "include/GooseEYE/Ensemble_W2.hpp: Ensemble::W2", "include/GooseEYE/Ensemble_W2c.hpp: Ensemble::W2c", "include/GooseEYE/Ensemble_heightheight.hpp: Ensemble::heightheight", "include/GooseEYE/Ensemble.hpp: Ensemble::result")

p("C98", "Positions and labels passed in Python are the ones used",
  "path, dummy_circles, center, center_of_mass, labels_centers and labels_centers_of_mass give in Python what the C++ functions give for the numbers in the arrays passed, whatever their dtype, with the defaults of C++ for arguments left out; arrays of the wrong rank raise an exception.",
  "all arrays of booleans, integers and floating point numbers, all ways of leaving out arguments",
  "The effect of a conversion depends on the values in the arrays.",
  "python/main.cpp: path, dummy_circles, center, center_of_mass, labels_centers, labels_centers_of_mass")

p("C99", "Names of labels do not matter to what is measured",
  "Label images that divide the pixels in the same way give the same labels_sizes, labels_centers and labels_centers_of_mass for the labels of the same pixels; labels_prune gives such an image; labels_reorder gives label i the size and center of label order[i]; renaming twice is renaming with the composed table; a labeller after any history differs from clusters() of the pixels added only by names that labels_map and labels_rename translate.",
  "all label images, tables and orders, all histories of calls of a labeller",
  "It relates every pair of label images with the same partition; tests compare a few.",
  "include/GooseEYE/GooseEYE.h: labels_map, labels_rename, labels_prune, labels_reorder, labels_sizes, labels_centers, labels_centers_of_mass, clusters, ClusterLabeller")

p("C100", "Centers move with what they are the center of",
  "Displacing all positions displaces center_of_mass by as much (modulo the box if periodic); in a periodic box it does not matter which periodic image of a position is passed; rolling a periodic label image (and its weights) displaces labels_centers and labels_centers_of_mass by as much, modulo the box.",
  "all positions, weights, displacements, label images and shapes of any rank",
  "It relates pairs of inputs, for every displacement.",
  "include/GooseEYE/GooseEYE.h: center_of_mass, labels_centers, labels_centers_of_mass")

p("C101", "Paths are symmetric",
  "path() of mirrored end points is the mirrored path, path() of end points with interchanged axes is the path with interchanged axes, and path(x1, x0) is path(x0, x1) backwards, in every mode.",
  "all pairs of distinct end points in one to three dimensions, all modes, all mirrorings and orders of the axes",
  "It relates pairs of calls for every pair of end points; ties and corners are rare in examples.",
  "include/GooseEYE/GooseEYE.h: path", "include/GooseEYE/detail.hpp: path::bresenham, path::actual, path::full")

p("C102", "Laws of drawings of circles",
  "The image of dummy_circles depends only on the set of circles, not on their order or on repetitions; more and larger circles cover more; the image of two lists together is the maximum of their images; if periodic, centres count modulo the shape and moving all circles rolls the image; the image that is not periodic is part of the periodic one and equals it if all circles fit; flipped or transposed circles give the flipped or transposed image.",
  "all shapes and lists of circles (any centres, also outside the image, and any radii)",
  "It relates pairs of calls for every list of circles.",
  "include/GooseEYE/GooseEYE.h: dummy_circles")

p("C103", "Clusters of circles",
  "In the clusters of an image of dummy_circles every circle is in one cluster, two circles are in the same cluster exactly if a chain of circles that touch leads from one to the other, everything else is background, and there are no more clusters than circles.",
  "all shapes and lists of circles, periodic or not",
  "It combines two functions for every list of circles: the number of circles, overlaps and crossings of the boundary is unbounded.",
  "include/GooseEYE/GooseEYE.h: dummy_circles, clusters")

p("C104", "Circles are not affected by rounding",
  "dummy_circles, which computes distances, the grid and the default radius with double precision numbers, draws the circles of exact arithmetic; random circles lie on the grid with radii of at most twice the default radius.",
  "all shapes, lists of circles and radii; all draws of the random number generator; any square root with an error below one unit in the last place",
  "Rounding near whole numbers depends on the values: there are too many radii, displacements and shapes to try.",
  "include/GooseEYE/GooseEYE.h: dummy_circles (both overloads)")

p("C105", "Centers are those of exact arithmetic up to rounding",
  "With double precision numbers, center, center_of_mass, labels_centers and labels_centers_of_mass return the (weighted) mean of the positions up to a few roundings per position; the mean of the pixels of a label is correctly rounded. In a periodic box they return the circular mean (up to whole boxes) with an error that is proportional to the length of the box and to the number of positions, and inversely proportional to how much the positions agree on a direction.",
  "all shapes, finite positions and weights; all orders of the sums; all implementations of cos, sin and atan2 that are accurate to a few units in the last place",
  "Rounding errors depend on every position, on the order of the sums and on the mathematical library; tests see a few sets with one library.",
  "include/GooseEYE/GooseEYE.h: center, center_of_mass, labels_centers, labels_centers_of_mass")

p("C106", "The center of a periodic set lies in the box",
  "In a periodic box, center and center_of_mass return a position between zero and the length of the box, for every axis.",
  "all shapes, finite positions and weights; all accurate mathematical libraries",
  "Results just outside the box arise from the rounding of a few particular lengths of the box; tests with other lengths do not see them.",
  "include/GooseEYE/GooseEYE.h: center, center_of_mass")

p("C107", "Arguments by position and by name in Python",
  "Python calls of path, dummy_circles, clusters, labels_map, labels_rename, labels_prune, labels_reorder, labels_sizes, center, center_of_mass, labels_centers and labels_centers_of_mass may give the first arguments by position and the others by their documented names in any order, with the same effect; periodic is true and mode is Bresenham if left out. Calls with missing, superfluous, repeated or unknown arguments raise.",
  "all functions, all numbers of positional arguments, all orders of the named ones, all values of the arguments",
  "The ways to split and order the arguments multiply, and for overloaded names every call competes with all overloads.",
  "python/main.cpp: PYBIND11_MODULE (86-223)")

p("C108", "Arguments by position and by name of the statistics in Python",
  "The methods of Ensemble and the functions S2, C2, W2, W2c, heightheight and L use each argument for the parameter of that position or name: images and masks are used as given, and roi, periodic and mode are those given (by default periodic is true, mode is Bresenham).",
  "all statistics, with and without masks, all splits and orders of the arguments, all dtypes and values of the images",
  "With three overloads per name, optional parameters in different orders and implicit conversions, which overload receives a call depends on the number, kinds, dtypes and sizes of all arguments.",
  "python/main.cpp: PYBIND11_MODULE (262-418, 450-688)")

p("C109", "Which label wins in a dilation",
  "Without periodicity, dilate makes as many passes as the largest number of iterations; in each pass a pixel without label takes the label of the last pixel in row-major order that reaches it by the kernel and whose label still grows, and all other pixels keep their value. This determines the result.",
  "all images of up to three dimensions, all kernels, all lists of iterations",
  "Where labels meet, the outcome depends on the order of the loops and on all earlier passes; tests fix a few meetings.",
  "include/GooseEYE/GooseEYE.h: dilate (291-381)")

p("C110", "L is at most C2 of the clusters",
  "For a binary image f, the lineal path function L(f) is at no offset larger than the two-point cluster function C2 of clusters(f), with the same periodicity: pixels joined by a straight stretch of the phase are in the same cluster.",
  "all images of up to three dimensions, regions of interest, offsets and path modes, periodic or not",
  "It relates three independent parts of the library (paths, labelling, statistics) for every image and every offset.",
  "include/GooseEYE/Ensemble_L.hpp: Ensemble::L", "include/GooseEYE/Ensemble_C2.hpp: Ensemble::C2", "include/GooseEYE/GooseEYE.h: clusters", "include/GooseEYE/detail.hpp: path::full")

p("C111", "Variance of the structure factor",
  "After two or more samples of one shape, Structure.variance() is the unbiased variance of the structure factors of the samples (NaN at the Nyquist frequencies): never negative, zero exactly if the samples agree, and independent of the order of the samples and of the origin of each. Asking for the variance does not change the averages or which samples are accepted.",
  "all lists of samples of one shape, in one and two dimensions, whatever uninitialised memory contains",
  "It is about sums over any number of samples of any size.",
  "python/GooseEYE/__init__.py: Structure._allocate, Structure.add_sample")

p("C112", "A refused sample leaves no trace in Structure",
  "If Structure.add_sample raises an exception, the object is as it was before: later samples are accepted or refused, and averaged, as if the refused one had never been offered.",
  "all histories of samples, accepted and refused, of any shapes",
  "It is about what an exception leaves behind, in any history of calls.",
  "python/GooseEYE/__init__.py: Structure._allocate, Structure.add_sample")

p("C113", "The cluster function sums to the sizes of the clusters",
  "For a periodic image of N pixels and a region of interest of the same shape, the values of the two-point cluster function C2 over all offsets add up to the sum, over the clusters, of the square of the size that labels_sizes reports, divided by N (a common estimate of the mean cluster size).",
  "all images of up to three dimensions, all labels",
  "It relates two independent parts of the library for every image of every size.",
  "include/GooseEYE/Ensemble_C2.hpp: Ensemble::C2", "include/GooseEYE/GooseEYE.h: labels_sizes, clusters")

p("C114", "W2c is an average over pixels of the image",
  "Where its norm is not zero, the collapsed weighted correlation W2c(clusters, centers, f, fmask) is an average of pixels of f that are not masked: it lies between the extremes of those pixels, it is c everywhere if f is c everywhere, it is linear in f, and what masked pixels of f hold has no influence.",
  "all images of up to three dimensions, clusters, centers, masks, regions of interest, path modes and offsets, periodic or not",
  "It is an inequality about sums along pixel paths of every length, for every image.",
  "include/GooseEYE/Ensemble_W2c.hpp: Ensemble::W2c")

p("C115", "L and W2c follow the image",
  "Moving all images and masks as a whole moves the lineal path function L and the collapsed correlation W2c accordingly: rolling periodic images leaves the result unchanged; flipping axes flips the result; transposing the images and the region of interest transposes the result.",
  "all images of up to three dimensions, masks, regions of interest, path modes, offsets and moves; rolls for periodic images",
  "It relates the results for two different inputs, for every input, through sums over pixel paths of every length.",
  "include/GooseEYE/Ensemble_L.hpp: Ensemble::L", "include/GooseEYE/Ensemble_W2c.hpp: Ensemble::W2c", "include/GooseEYE/detail.hpp: path::bresenham, path::actual, path::full")

p("C116", "A refused call leaves no trace in an ensemble or a labeller",
  "If a call that adds to an Ensemble or to a ClusterLabeller throws, and the caller goes on with the object, then it is as if the call had never been made: all later calls are accepted or refused, and give results, as without it (in C++ and in Python).",
  "all objects in any state, all sequences of calls of any length in which any are refused, with and without assertions",
  "It has to hold wherever an exception can leave a method, in any history.",
  "include/GooseEYE/GooseEYE.h: ClusterLabeller::add_image, add_points, add_sequence", "include/GooseEYE/Ensemble_S2.hpp: Ensemble::S2", "include/GooseEYE/Ensemble_mean.hpp: Ensemble::mean", "include/GooseEYE/Ensemble_heightheight.hpp: Ensemble::heightheight")

p("C117", "The size of the region of interest does not change what is measured",
  "The value of a statistic at an offset (and the data and normalisation behind it) does not depend on the size of the region of interest: a larger region adds values at larger offsets and leaves the others as they are.",
  "all images of any shape up to three dimensions, all masks, periodic or not, all sequences of calls, all pairs of regions",
  "It relates two runs for all images and all pairs of regions; the region decides how the image is padded, which windows are cut and which paths are walked.",
  "include/GooseEYE/GooseEYE.h: Ensemble", "include/GooseEYE/Ensemble_S2.hpp: Ensemble::S2", "include/GooseEYE/Ensemble_C2.hpp: Ensemble::C2", "include/GooseEYE/Ensemble_W2.hpp: Ensemble::W2", "include/GooseEYE/Ensemble_heightheight.hpp: Ensemble::heightheight", "include/GooseEYE/Ensemble_L.hpp: Ensemble::L", "include/GooseEYE/Ensemble_W2c.hpp: Ensemble::W2c")
p("C118", "Along an axis the lineal path function is the fraction of straight stretches in the phase",
  "In any dimension, with any region of interest and any path mode, the lineal path function at t pixels along an axis is the fraction of the pixels of the image from which the straight stretch of t pixels along that axis lies in the image (wrapped if periodic) and in the phase. So along each axis it decays with distance and is the same forward and backward.",
  "all images of at most three dimensions, all regions of more than one pixel, all axes and distances, the three path modes, periodic or not",
  "The value at an element collects all paths that happen to pass it; that all of these are straight up to there holds for every region and every mode.",
  "include/GooseEYE/Ensemble_L.hpp: Ensemble::L", "include/GooseEYE/GooseEYE.hpp: path")

p("C119", "Axes of one pixel do not matter",
  "An image and the same image with an axis of one pixel inserted anywhere (a row as an image of one line, an image as a volume of one layer) give the same statistics, the same cluster labels and the same dilated foreground, with the same axis inserted in the region of interest or the kernel, periodic or not.",
  "all one- and two-dimensional images, all positions of the new axis, all regions, masks, path modes, kernels and sequences of calls",
  "It relates two runs that go through different code (branches for one-pixel axes, different placements in the three-dimensional array) for all images.",
  "include/GooseEYE/GooseEYE.h: Ensemble", "include/GooseEYE/GooseEYE.h: ClusterLabeller", "include/GooseEYE/GooseEYE.h: dilate", "include/GooseEYE/Ensemble_L.hpp: Ensemble::L", "include/GooseEYE/Ensemble_W2c.hpp: Ensemble::W2c", "include/GooseEYE/GooseEYE.hpp: path")

p("C120", "Repeating a periodic image changes no statistic",
  "On a periodic ensemble an image that is repeated any number of times along its axes (with its masks, weights, clusters and centres) gives the same result as the image itself, for every statistic; the sums and the normalisation are those of the image times the number of copies.",
  "all images of one to three dimensions, all numbers of copies per axis, all regions of interest of at most the size of the image, all path modes, clusters and centres",
  "It relates two runs on images of different sizes, one as large as one likes, in which other pixels are reached across the boundary.",
  "include/GooseEYE/GooseEYE.h: Ensemble", "include/GooseEYE/Ensemble_S2.hpp: Ensemble::S2", "include/GooseEYE/Ensemble_C2.hpp: Ensemble::C2", "include/GooseEYE/Ensemble_W2.hpp: Ensemble::W2", "include/GooseEYE/Ensemble_heightheight.hpp: Ensemble::heightheight", "include/GooseEYE/Ensemble_L.hpp: Ensemble::L", "include/GooseEYE/Ensemble_W2c.hpp: Ensemble::W2c")

p("C121", "Empty surroundings do not matter",
  "Placing an image in a larger one whose margin is zero (any number of pixels before and after, per axis) changes nothing inside: the clusters get the same labels, number by number, also if the larger image is periodic while the margin is at least one pixel wide along every axis; the dilated foreground inside the image is the same; and a non-periodic ensemble gets the same S2, C2, W2 and heightheight if the margin (whatever it holds) is masked, with W2's weights zero there.",
  "all images of one to three dimensions, all margins, all kernels and numbers of iterations, all regions of interest, masks and values in the margin",
  "It relates two runs on images of different sizes, one as large as one likes.",
  "include/GooseEYE/GooseEYE.h: clusters", "include/GooseEYE/GooseEYE.h: dilate", "include/GooseEYE/Ensemble_S2.hpp: Ensemble::S2", "include/GooseEYE/Ensemble_C2.hpp: Ensemble::C2", "include/GooseEYE/Ensemble_W2.hpp: Ensemble::W2", "include/GooseEYE/Ensemble_heightheight.hpp: Ensemble::heightheight")

p("C122", "Repeating a periodic image repeats its dilation and keeps its clusters apart",
  "For a periodic image that is repeated any number of times along its axes: the dilated foreground is the dilated foreground repeated, for every kernel and number of iterations; pixels in one cluster of the repeated image are copies of pixels in one cluster of the image, and every copy of a pixel is in one cluster with a copy of each pixel of its cluster; so the number of clusters is at least that of the image and at most that times the number of copies.",
  "all images of one to three dimensions, all numbers of copies per axis, all kernels that fit the image, all numbers of iterations",
  "It relates two runs on images of different sizes, one as large as one likes, in which other pixels are reached across the boundary.",
  "include/GooseEYE/GooseEYE.h: clusters", "include/GooseEYE/GooseEYE.h: dilate")

p("C123", "Dilation keeps clusters in one piece and creates no new ones",
  "Dilating an image never tears a cluster apart: a label whose pixels are connected is connected afterwards. With the default kernel, pixels in one cluster of the image are in one cluster of the dilated image, every cluster of the dilated image contains one of the image, and there are no more clusters than before.",
  "all images of one to three dimensions, periodic or not, all kernels and numbers of iterations per label",
  "The labels compete for pixels, and which one is taken depends on the order in which pixels are visited: whether one of them cuts off another depends on the whole image.",
  "include/GooseEYE/GooseEYE.h: dilate", "include/GooseEYE/GooseEYE.h: clusters")

p("C124", "The label functions are exact for every integral type of the labels",
  "labels_rename, labels_prune, labels_reorder and labels_sizes give for labels, tables, orders and names of any integral types (8 to 64 bits, signed or not, also of different types) the results that they give in exact arithmetic.",
  "all integral value types of the arguments, all label images whose labels fit their type, of any size",
  "The failures need as many labels or pixels as the type has values; for wide types no test can reach them.",
  "include/GooseEYE/GooseEYE.h: labels_rename", "include/GooseEYE/GooseEYE.h: labels_prune", "include/GooseEYE/GooseEYE.h: labels_reorder", "include/GooseEYE/GooseEYE.h: labels_sizes")

p("C125", "Centers follow reflections, transpositions, units and unions",
  "Flipping axes of an image or reflecting positions reflects the centers (up to the period); transposing a label image reverses the rows of its centers; each coordinate depends on its own axis only and all axes are treated alike; in other units of length the center is the same point; without periodicity the center of mass of a union is the weighted mean of the two centers of mass, also for two labels that are merged into one.",
  "all positions, weights, boxes, label images of any size and rank, all labels, all reflections and scales",
  "Infinitely many real positions and scales; a test compares particular values.",
  "include/GooseEYE/GooseEYE.h: center", "include/GooseEYE/GooseEYE.h: center_of_mass", "include/GooseEYE/GooseEYE.h: labels_centers", "include/GooseEYE/GooseEYE.h: labels_centers_of_mass")

p("C126", "Paths and circles do not overflow int",
  "For int coordinates the integer arithmetic of path and dummy_circles never leaves the range of int: the path (in mode Bresenham: for points less than 2^30 apart) and the image (for circles whose bounding box has int coordinates) are those computed with unbounded integers; and no call of path, in any mode, runs for more than 2^31 turns without overflow.",
  "all pairs of pixels, all path modes, all lists of circles, periodic or not",
  "Overflow shows up only at extreme coordinates, of which there are far too many to test, and is undefined behaviour that need not show in a test.",
  "include/GooseEYE/detail.hpp: path::bresenham", "include/GooseEYE/detail.hpp: path::actual", "include/GooseEYE/detail.hpp: path::full", "include/GooseEYE/GooseEYE.h: dummy_circles")

p("C127", "The labels of clusters are ints",
  "clusters returns the labels 1..n of its labeller (C01, C02) as ints, without loss.",
  "all images of rank at most three, periodic or not",
  "The conversion only matters for images with more clusters than any test can have.",
  "include/GooseEYE/GooseEYE.h: clusters", "include/GooseEYE/GooseEYE.h: ClusterLabellerOverload")

p("C128", "Structure follows mirrored, scaled, shifted and transposed samples",
  "mean() of Structure has the same entry at opposite frequencies; samples read backwards give the same entries; multiplying the samples by c multiplies the entries by c^2, and adding a constant to a sample changes only the entry of frequency zero, which is the mean of the squared sums divided by the number of points; transposing two-dimensional samples transposes the entries, and flipping one axis flips the frequencies of that axis.",
  "all numbers of points, histories of samples and contents of the memory",
  "A law relates the results of all samples and all shapes; the entries of a few samples of one shape say nothing about it.",
  "python/GooseEYE/__init__.py: Structure.add_sample", "python/GooseEYE/__init__.py: Structure")

p("C129", "The algebra of dilation",
  "The dilated foreground of a union of images is the union of their dilated foregrounds; more pixels in the kernel never give less, and one iteration with the union of two kernels gives the union. Transposing image and kernel transposes the dilated foreground; flipping image and kernel along axes along which the kernel has odd length flips it. For a kernel of odd lengths the dilation of f meets g if and only if f meets the dilation of g by the mirrored kernel.",
  "all images of rank at most three, kernels and numbers of iterations, periodic or not",
  "Each law relates the results of all images and kernels.",
  "include/GooseEYE/GooseEYE.h: dilate", "include/GooseEYE/GooseEYE.h: detail::periodic_copy")

p("C130", "Structure in floating point",
  "If NumPy's transform of every sample is right up to d, then mean() of Structure is finite and within (4 A d + (9 N + 33) 2^-52 A^2) / size of the average of the exact structure factors, for N samples of which the absolute values and d add up to at most A; the Nyquist entries are NaN. Opposite frequencies hold exactly the same number, whatever the transform returned, and no value is negative if opposite components are exact conjugates. Samples of integers lose nothing more than that if their structure factors are integers.",
  "all samples, transforms within the error, histories, ways to evaluate the complex products (with or without fused operations)",
  "The bound is on all rounding errors of all samples.",
  "python/GooseEYE/__init__.py: Structure.add_sample", "python/GooseEYE/__init__.py: Structure._allocate")

p("C131", "The documented use of W2c counts every cluster once, from its center",
  "As documented (label the image, compute the centers of the labels, round them to pixels, clip, write the labels in an image of centers, call W2c): the image of centers never fails to be made, every cluster gets one center pixel, the one nearest to its center, and W2c collects along the paths from the center pixels of all clusters.",
  "all images, regions of interest, path modes, masks, shapes of up to three axes, periodic or not",
  "Which clusters are counted depends on the shape of all of them.",
  "docs/examples/W2c.py", "include/GooseEYE/GooseEYE.h: labels_centers", "include/GooseEYE/GooseEYE.h: clusters", "include/GooseEYE/Ensemble_W2c.hpp: Ensemble::W2c")

p("C132", "A call of a statistic is carried out or refused, and never reads or writes outside its arrays",
  "Whatever arrays are passed, of matching shapes or not, to whatever sequence of calls, refused ones included: with assertions enabled a call is carried out if everything has the shape of the image, the rank is that of the region of interest, masks are made of 0 and 1 and the measure is that of the ensemble, and throws otherwise; no array is ever read or written outside its end.",
  "all ensembles, all histories of calls (accepted or refused) of all statistics, all shapes and values of all arrays, regions of interest for which the statistic is defined",
  "There are endlessly many ways in which arrays fail to match; a read outside an array need not fail a test.",
  "include/GooseEYE/Ensemble_S2.hpp: Ensemble::S2", "include/GooseEYE/Ensemble_C2.hpp: Ensemble::C2", "include/GooseEYE/Ensemble_W2.hpp: Ensemble::W2", "include/GooseEYE/Ensemble_W2c.hpp: Ensemble::W2c", "include/GooseEYE/Ensemble_heightheight.hpp: Ensemble::heightheight", "include/GooseEYE/Ensemble_L.hpp: Ensemble::L", "include/GooseEYE/Ensemble_mean.hpp: Ensemble::mean")

p("C133", "Rounding does not move the centers of the documented use of W2c",
  "With IEEE 754 numbers, whatever the order in which sums are added, the image of centers made as documented for W2c is the one of exact arithmetic: the centers are in the same pixels.",
  "all shapes and labels (up to 2^40 pixels), periodic or not, all orders of summation, all mathematical libraries of the stated precision",
  "A center that is halfway between two pixels, or next to the end of an axis, is decided by the last bit of a sum of sines.",
  "docs/examples/W2c.py", "include/GooseEYE/GooseEYE.h: labels_centers", "include/GooseEYE/GooseEYE.h: center")

p("C134", "The result does not depend on the layout of an array in memory",
  "Two arrays with the same shape and elements give the same result, whether they are in row-major or in column-major (Fortran) order, transposed, or a view of a larger array.",
  "all shapes, all strides and positions in memory (order, gaps, reversed axes), all elements, assertions enabled or not",
  "Tests pass freshly made arrays, which are all in row-major order.",
  "include/GooseEYE/GooseEYE.h: clusters", "include/GooseEYE/GooseEYE.h: ClusterLabeller::add_image", "include/GooseEYE/GooseEYE.h: labels_map",
  "include/GooseEYE/GooseEYE.h: labels_rename", "include/GooseEYE/GooseEYE.h: labels_prune", "include/GooseEYE/GooseEYE.h: labels_reorder",
  "include/GooseEYE/GooseEYE.h: labels_sizes", "python/main.cpp")

p("C135", "Labels that were read stay as they were",
  "The labels that Python reads from a labeller are those of that moment: later calls do not change them, and changing them has no effect on the labeller.",
  "all programs of calls, reads, copies and writes to what was read, all shapes and kernels, assertions enabled or not",
  "It depends on what happens to an array after it was compared; a test that reads, compares and ends cannot see it.",
  "python/main.cpp: allocate_ClusterLabeller", "include/GooseEYE/GooseEYE.h: ClusterLabeller::labels", "include/GooseEYE/config.h: array_type::tensor")

p("C136", "Which paths in the modes actual and full end",
  "path(x0, x1, mode) in the modes actual and full returns if the line through the two points passes through the inside of the pixel of the origin (along the axes on which they differ), and runs forever otherwise. A path that is returned leads from x0 to x1 through adjacent pixels without ever moving away from x1, and visits pixels that the line touches.",
  "all pairs of different points of rank 1 to 3, at most 707 pixels apart along each axis, both modes",
  "The tests start at the origin; whether a call returns cannot be tested, and pairs of points are unbounded.",
  "include/GooseEYE/detail.hpp: path::actual", "include/GooseEYE/detail.hpp: path::full", "include/GooseEYE/GooseEYE.hpp: path")

p("C137", "W2c for every region of interest: displaced, or outside",
  "For every region of interest W2c gives what C41 describes, displaced in the flattened result by the half size of the second axis minus the half size of the third axis (by nothing for ranks one and two, or if the third axis has one element). If all counts stay within the result the call succeeds, and elements to which nothing is displaced stay zero; if one of them leaves the result the behaviour is undefined.",
  "all regions of interest and images of rank 1 to 3, all masks, both periodicity modes, all path modes",
  "The tests use one- and two-dimensional images; the region of interest, the images and the clusters are unbounded.",
  "include/GooseEYE/Ensemble_W2c.hpp: Ensemble::W2c")

p("C138", "Which label a pixel of a periodic image takes in a dilation",
  "A dilation of a periodic image with several labels makes as many passes as the largest number of iterations. In each pass every place without label, also those around the image as far as the kernel reaches, takes the label of the last pixel (in row-major order) that reaches it; then what lies beyond the upper end of each axis, and after that what lies beyond the lower end of each axis, is put over the pixels at the other end. The whole result follows from this. With one iteration: labelled pixels keep their label, a pixel that nothing reaches stays background, and of several labels that reach a pixel one that came over the lower end of an axis is taken before one that came over the upper end, and that before one from within the image.",
  "all images of rank at most 3 with any labels, all binary kernels whose half fits the image, all lists of iterations, assertions on or off",
  "Which label wins depends on the order of the pixels and of six copies of the surroundings; tests show single images.",
  "include/GooseEYE/GooseEYE.h: dilate, detail::periodic_copy_above_to_below, detail::periodic_copy_below_to_above, detail::periodic_copy")

p("C139", "No axis is special: the axes may be put in any order",
  "Putting the axes of an image (and of the kernel, mask, labels, weights and region of interest that go with it) in another order, as np.transpose with axes, np.swapaxes and np.moveaxis do, puts the axes of the outcome in that order: the clusters, the dilated foreground, the statistics S2, C2, W2 and heightheight, the statistics L and W2c along Bresenham and actual paths, and the centers of labels and centers of mass.",
  "all orders of the axes of all images of rank at most 3 (centers: any rank), all values, kernels, masks, labels and weights, periodic or not, variance or not, assertions on or off",
  "The functions have separate code per axis and per rank; tests compare single images in the order they come in.",
  "include/GooseEYE/GooseEYE.h: ClusterLabeller, clusters, dilate, labels_centers, labels_centers_of_mass; include/GooseEYE/detail.hpp: path; include/GooseEYE/Ensemble.hpp: Ensemble")

p("C140", "A labeller follows the pixels it is given",
  "Moving every pixel of a history of add_points, add_sequence, prune and reset in a way that keeps neighbours neighbours (rolling a periodic image, flipping axes, putting the axes in another order; a kernel moved along) moves the labels along: every call returns the same list and every pixel has the label it had. With add_image among the calls, or the pixels added in another order, the clusters move along, under other labels.",
  "all one-to-one moves of the pixels that keep neighbours, all histories of calls, all shapes up to rank 3 (with a kernel: every rank), all kernels (symmetric or not when the order is kept), periodic or not, assertions on or off",
  "A test moves one image one way; the claim is about every history and every move.",
  "include/GooseEYE/GooseEYE.h: ClusterLabeller, ClusterLabeller::add_points, ClusterLabeller::add_sequence, ClusterLabeller::add_image, ClusterLabeller::prune, ClusterLabeller::reset")

p("C141", "prune() may be called at any moment",
  "Two histories of a labeller with the same calls but for prune(): the other calls return the same lists, the same pixels have label 0, the labels order the pixels in the same way (so the clusters are the same), and after one more prune() the two labellers are the same in every member, hence also in all that follows.",
  "all pairs of histories of legal calls that differ in their calls of prune only, all shapes up to rank 3 (with a kernel: every rank), all kernels (symmetric or not), periodic or not, assertions on or off",
  "A test prunes at one or two moments of one history; the claim is about every history and every set of moments.",
  "include/GooseEYE/GooseEYE.h: ClusterLabeller::prune, ClusterLabeller::add_image, ClusterLabeller::add_points, ClusterLabeller::add_sequence, ClusterLabeller::reset")

p("C142", "One more pixel: exactly what changes",
  "Adding one pixel to a labeller, after any history: nothing changes if it was added before; a pixel next to no cluster starts a new one with a label larger than all others (after a prune(): the number of clusters plus one) and changes no other pixel; a pixel next to clusters takes the smallest of their labels, all pixels of these clusters take it too, and no other pixel changes. A pixel next to k clusters changes the number of clusters by 1 - k.",
  "all histories of legal calls, all pixels, all shapes up to rank 3 (with a kernel: every rank), all kernels (symmetric or not), periodic or not, assertions on or off",
  "A test adds a pixel in one situation; the claim is about every configuration of clusters and every history that led to it.",
  "include/GooseEYE/GooseEYE.h: ClusterLabeller::add_points, ClusterLabeller::prune, ClusterLabeller::labels")

p("C143", "On the machine the same paths end, with the same pixels",
  "Rounding changes neither the pixels of a path in the modes actual and full nor whether the call returns: a call returns the path of C136 if the line passes through the inside of the pixel of the origin, and its loop has no end otherwise. With ints of 32 bits the paths that end are the same, and every other call runs into the overflow of an int.",
  "all pairs of points of rank 1 to 3, at most 707 pixels apart along each axis, the first at most 4096 pixels from the origin",
  "Rounding errors depend on the points, of which there are about 10^21; whether a loop ends cannot be tested.",
  "include/GooseEYE/detail.hpp: path::actual", "include/GooseEYE/detail.hpp: path::full", "include/GooseEYE/GooseEYE.hpp: path")

p("C144", "The paths that L and W2c walk are the same on the machine",
  "Any sequence of calls of an Ensemble has the same outcome, and stores the same doubles, whether the paths that L and W2c walk are computed exactly or with doubles and ints of 32 bits. So the statistics of images of integers are exact (C78) with the paths of the machine.",
  "all images, masks, modes and sequences of calls; regions of interest of any rank of at most 1415 pixels along each axis (Bresenham: less than 2^31)",
  "One path that leaves a pixel out because of rounding changes the statistics by a small amount only; there are as many paths as there are pixels on the border of the region.",
  "include/GooseEYE/Ensemble_L.hpp: Ensemble::L", "include/GooseEYE/Ensemble_W2c.hpp: Ensemble::W2c", "include/GooseEYE/GooseEYE.hpp: path")

p("C145", "Periodic clusters can be named after the clusters of the image cut open",
  "labels_map(clusters(f, periodic=True), clusters(f, periodic=False)) has exactly one row per label and different names in each column, as the documented example asserts. Renaming the periodic labels with it keeps the background, the partition and the order of the labels, and gives each cluster the smallest label of the pieces into which the boundary cuts it (so clusters that are not cut take their own label). The table the other way around glues the pieces: it turns the labels of the image cut open into the periodic ones.",
  "all images of rank 1 to 3",
  "Whether two clusters get the same name depends on how the boundary cuts every cluster of the image, and on the order in which pixels are scanned.",
  "include/GooseEYE/GooseEYE.h: labels_map", "include/GooseEYE/GooseEYE.h: labels_rename", "include/GooseEYE/GooseEYE.h: clusters", "docs/examples/clusters_centers.py")

p("C146", "The frequencies of Structure are right up to rounding",
  "q() returns finite doubles that differ from the exact frequencies by at most one unit in the last place: zero is exactly zero, opposite frequencies are exactly opposite, the order is that of the exact frequencies (so different frequencies stay different), none exceeds 1/2 in size, and all are exact if the size is a power of two. qnorm holds in one dimension the same doubles as q; in two dimensions the norms up to 2^-50, not decreasing along rows and columns, symmetric for square samples, and equal to q on the axes. Every frequency is the double nearest to the exact one, the last one is -1/2 for even sizes, and entries of equal norm have equal qnorm.",
  "all sizes up to 2^51",
  "Whether k times the rounded 1/n rounds well depends on k and n; sizes that tests like (powers of two) are exact.",
  "python/GooseEYE/__init__.py: Structure.q", "python/GooseEYE/__init__.py: Structure.qnorm")

p("C147", "Distances in the region of interest are right up to rounding",
  "After any calls, distance(axis) returns the exact distances in pixels. distance() returns for every element a double next to the exact distance to the centre, the exact one if that is a whole number, and doubles that compare as the exact distances do: elements as far from the centre as each other have the same value, others do not. distance(h, axis) is correctly rounded, and distance(h) is right up to a relative error of 2^-49. An axis that does not exist and the wrong number of lengths throw if assertions are enabled. With lengths too, elements as far from the centre as each other have the same value.",
  "all regions of interest (axes up to 2^53, for distance() up to 2^25), all histories of calls with any images, all lengths of pixels that are zero or between 2^-400 and 2^400 in size, every pow() that meets a stated accuracy, both ways in which linspace may compute its values",
  "Grouping a result by distance relies on equality of doubles; whether two sums of rounded squares are equal depends on the offsets and on h, and tests look at a few small regions with h = 1.",
  "include/GooseEYE/Ensemble.hpp: Ensemble::distance")

p("C148", "Autocorrelations are positive definite, height differences are a distance",
  "For an ensemble of periodic images without masks, of any shapes, and for any places with any coefficients whose mutual offsets lie in the region of interest, the sum over all pairs of places of the product of their coefficients and of S2(f, f) at the offset between them is not negative; the same holds for C2(f, f) of an image of labels. For the square of heightheight(f) that sum is not positive if the coefficients sum to zero, and heightheight at the sum of two offsets is at most the sum of heightheight at the two.",
  "all sequences of periodic images (of any shapes, values and labels), all regions of interest, all finite families of places and coefficients, all pairs of offsets",
  "A correlation function that is used for reconstruction, kriging or a spectrum must be realizable: positive definiteness ranges over all families of places and coefficients, of which no test tries more than a few.",
  "include/GooseEYE/Ensemble_S2.hpp: Ensemble::S2", "include/GooseEYE/Ensemble_C2.hpp: Ensemble::C2", "include/GooseEYE/Ensemble_heightheight.hpp: Ensemble::heightheight", "include/GooseEYE/Ensemble.hpp: Ensemble::result")

p("C149", "C2, heightheight and W2 follow from S2",
  "C2(f, g) is, at every offset, the sum over the labels v of S2 of the images of the pixels with label v, with the same masks. For periodic images without masks, also in an ensemble of several, the square of heightheight(f) at an offset is twice the difference between S2(f, f) at the centre and S2(f, f) at that offset. With any mask, periodic or not, it is S2(f^2, 1) + S2(1, f^2) - 2 S2(f, f), each with that mask for both images. Where the weights add up to a positive number W2(w, f) is S2(w, f) / S2(w, 1), with the mask for the second image.",
  "all images of labels and all masks, periodic or not; all sequences of periodic images of any shapes and values; all regions of interest, all offsets",
  "These are identities between separate functions of the library that loop over the image in their own way; they have to hold for every image, mask and offset, and tests compare each function with a few stored values.",
  "include/GooseEYE/Ensemble_C2.hpp: Ensemble::C2", "include/GooseEYE/Ensemble_S2.hpp: Ensemble::S2", "include/GooseEYE/Ensemble_heightheight.hpp: Ensemble::heightheight", "include/GooseEYE/Ensemble_W2.hpp: Ensemble::W2", "include/GooseEYE/Ensemble.hpp: Ensemble::result")

p("C150", "The lineal path function gives the chord lengths",
  "Along every axis, in every path mode, the step of L from t - 1 to t pixels is the fraction of pixels from which the phase goes on for exactly t pixels, and the difference between two successive steps is the number of chords (maximal runs of the phase) of exactly t pixels divided by the number of pixels of the image. So L is convex along the axes, away from the centre.",
  "all images, periodic or not, of up to three dimensions, all regions of interest that the paths cover, all path modes, all axes and distances in the region",
  "Chord length distributions are derived from L by taking differences; that the number of walks per offset cancels exactly for every region of interest and that runs which end at the boundary are counted once concerns every image.",
  "include/GooseEYE/Ensemble_L.hpp: Ensemble::L", "include/GooseEYE/Ensemble.hpp: Ensemble::result")

p("C151", "In one dimension the clusters are the stretches of foreground",
  "For an image of one axis clusters() gives every foreground pixel the number of its stretch (maximal run of foreground), counted from the left; in a periodic image the stretch that runs up to the last pixel gets label 1 if the first pixel is foreground too. The number of clusters is the number of foreground pixels less the number of neighbouring pairs of foreground pixels (if there is background, or the image is not periodic), and this is the number of pixels times L(0) - L(1) of the lineal path function.",
  "all images of one axis of every length and all values of their pixels, periodic or not; for L all regions of interest of more than one pixel that the paths cover, and all path modes",
  "The labels come from merging labels of pixels that are met one after another and from pruning, and the lineal path function from walks over paths: a closed form for every row of pixels cannot be tested row by row.",
  "include/GooseEYE/GooseEYE.h: ClusterLabeller, clusters", "include/GooseEYE/Ensemble_L.hpp: Ensemble::L")

p("C152", "Bounds on the number of clusters",
  "The number of clusters that clusters() finds is at most the number of foreground pixels, and at least that number less the number of pairs of face neighbours in the foreground (periodic pairs included if the image is periodic). The same holds for a labeller with a symmetric kernel, with the pairs of neighbours of that kernel. Measured by S2 of the phase: the number of clusters is at most the sum of S2 at the centre, and at least that sum less the sums one pixel away along each axis.",
  "all images of up to three dimensions, of every shape and with all values, periodic or not",
  "A cluster merged once too often, over a boundary or through a corner, shows only in particular images; the bound relates the number of clusters of every image to counts that do not involve labelling.",
  "include/GooseEYE/GooseEYE.h: ClusterLabeller, clusters", "include/GooseEYE/Ensemble_S2.hpp: Ensemble::S2")

p("C153", "One pixel away C2 and L are S2",
  "If the labels given to C2 are the clusters of an image, then at offset zero and one pixel away along any axis, in either direction, C2 equals S2 of the image's phase (1 where the image is not zero), sums, normalisation and result, with the same masks. The lineal path function at those offsets is the sum of S2 (without masks) over the number of pixels of the image, which in a periodic image is the result of S2, for every kind of path. For the labels of a labeller with a symmetric kernel, after any history of calls, C2 equals S2 of the labelled pixels at every offset of the kernel.",
  "all images of up to three dimensions, of every shape and with all values, every region of interest that fits, periodic or not, all masks",
  "The agreement relates three functions (the labelling, C2 and S2) and their treatment of the boundary, in every image: a boundary handled differently in one of them shows only in images that have the phase there.",
  "include/GooseEYE/GooseEYE.h: clusters", "include/GooseEYE/Ensemble_C2.hpp: Ensemble::C2", "include/GooseEYE/Ensemble_S2.hpp: Ensemble::S2", "include/GooseEYE/Ensemble_L.hpp: Ensemble::L")

p("C154", "C2 is S2 exactly if there is one cluster",
  "With a region of interest that holds every offset (the shape of a periodic image, 2 n - 1 along each axis otherwise), C2 of the clusters of an image equals S2 of its phase at every offset if and only if the phase is connected, that is any two of its pixels are joined by a chain of face neighbours in it.",
  "all images of up to three dimensions, of every shape and with all values, periodic or not",
  "It is an equivalence over all images: one direction says that C2 sees every pair of clusters, the other that it never tears one cluster apart. A test sees single images.",
  "include/GooseEYE/GooseEYE.h: clusters", "include/GooseEYE/Ensemble_C2.hpp: Ensemble::C2", "include/GooseEYE/Ensemble_S2.hpp: Ensemble::S2")

p("C155", "heightheight and S2 find the offsets under which an image repeats",
  "Without a mask the result of heightheight at an offset is zero if and only if the image repeats itself at that offset: every pixel has the value of the pixel that offset away, where there is one (over the boundary if the image is periodic). With a mask, in an image that is not periodic, it is zero if and only if that holds for the pairs of which neither pixel is masked. In a periodic image S2(f, f) at an offset equals S2(f, f) at offset zero if and only if the image repeats itself there.",
  "all images of up to three dimensions, of every shape and with all exact values, every region of interest that fits, periodic or not (heightheight), periodic (S2)",
  "The equivalence says that no pair of pixels is missed and none is invented, in any image: a pair lost at a boundary shows only if that pair alone differs.",
  "include/GooseEYE/Ensemble_heightheight.hpp: Ensemble::heightheight", "include/GooseEYE/Ensemble_S2.hpp: Ensemble::S2")

p("C156", "S2 of two images shows the displacement between them",
  "For two periodic images without masks, twice S2(f, g) at any offset is at most the sum of S2(f, f) and S2(g, g) at offset zero, and equals it if and only if g is f displaced by that offset: every pixel of f has the value of the pixel of g that offset away, over the boundary.",
  "all pairs of periodic images of up to three dimensions, of one shape, with all exact values, every region of interest that fits",
  "It is what a user relies on who looks for a displacement by the highest peak: no pair of images has a peak at a wrong offset. A test tries some images and displacements.",
  "include/GooseEYE/Ensemble_S2.hpp: Ensemble::S2")

p("C157", "Where C2 of periodic images is at its peak",
  "For two periodic images of labels without masks, C2(f, g) at any offset is at most C2(f, f) at offset zero, and equals it if and only if that offset leads from every labelled pixel of f to a pixel of g that has the same label, over the boundary.",
  "all pairs of periodic images of labels of up to three dimensions, of one shape and with all values, every region of interest that fits",
  "The equivalence says that no pair is missed or counted in error in any image; a test sees a few images.",
  "include/GooseEYE/Ensemble_C2.hpp: Ensemble::C2")

p("C158", "Where S2 of a periodic image is at its peak, its clusters repeat",
  "If S2 of the phase of a periodic image (1 where the image is not zero) has at some offset the value it has at offset zero, then displacing pixels by that offset, over the boundary, takes clusters to clusters: two pixels have the same label if and only if the displaced pixels have, and a pixel is background if and only if the displaced pixel is.",
  "all periodic images of up to three dimensions, of every shape and with all values, every region of interest that fits",
  "It relates what one function measures to what another one labels, in every image; a difference in how the two treat the boundary shows only in images with clusters across it.",
  "include/GooseEYE/GooseEYE.h: clusters", "include/GooseEYE/Ensemble_S2.hpp: Ensemble::S2")

if __name__ == "__main__":
    with open("/verif/properties.jsonl", "w") as f:
        for x in P:
            f.write(json.dumps(x) + "\n")
    print(len(P))
