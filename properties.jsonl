{"id": "C01", "title": "add_interval is set union and keeps the list normal", "statement": "After any sequence of ListOfIntervals::add_interval / add_point calls on an empty list, the list covers exactly the integers covered by the valid intervals that were passed, and the stored intervals are non-empty, increasing and separated by at least one uncovered integer.", "quantifier": "all finite sequences of intervals (valid or not), of any length and any coordinates", "why_tests_cant": "the branch taken depends on the overlap pattern of the new interval with arbitrarily many stored ones; tests fix a handful of patterns", "anchors": ["include/samurai/list_of_intervals.hpp: add_interval, add_point, forward_find_if"]}
{"id": "C02", "title": "ListOfIntervals is canonical: insertion order and multiplicity are irrelevant", "statement": "Two sequences of add_interval/add_point calls that cover the same integers produce lists with the same starts and ends; in particular adding twice or permuting the calls changes nothing.", "quantifier": "all pairs of insertion sequences with equal union", "why_tests_cant": "equality has to hold for every pair of histories, infinitely many", "anchors": ["include/samurai/list_of_intervals.hpp: add_interval"]}
{"id": "C03", "title": "Interval right/left shift is projection on a coarser/finer grid", "statement": "i >> s contains a coarse coordinate c iff some fine coordinate f in i has f >> s = c (and it is the smallest such interval); i << s contains a fine coordinate f iff (f >> s) is in i; (i << s) >> s = i.", "quantifier": "all valid intervals (negative coordinates included) and all shifts s >= 0", "why_tests_cant": "rounding of negative and odd bounds has unboundedly many cases", "anchors": ["include/samurai/interval.hpp: operator>>=, operator<<="]}
{"id": "C04", "title": "even_elements and odd_elements split an interval", "statement": "Enumerating i.even_elements() with its step yields exactly the even members of i in increasing order, odd_elements() the odd members, is_valid() tells whether there is one, and >>1 of each enumerates the corresponding coarse coordinates in step.", "quantifier": "all valid intervals", "why_tests_cant": "parity of both bounds and empty sub-ranges interact; statement is about all intervals", "anchors": ["include/samurai/interval.hpp: even_elements, odd_elements, operator>>="]}
{"id": "C05", "title": "Interval division covers the quotients", "statement": "interval / n contains floor(x / n) for every x of the interval (the coarse cells it touches, as operators written with i / 2 assume) and nothing else.", "quantifier": "all valid intervals and all n > 0", "why_tests_cant": "depends on divisibility of both ends", "anchors": ["include/samurai/interval.hpp: operator/="]}
{"id": "C06", "title": "Building a LevelCellArray from a LevelCellList preserves the cells", "statement": "For every dimension, a cell belongs to LevelCellArray(lcl) iff its x coordinate lies in an interval stored in lcl at its (y,z,...) position.", "quantifier": "all dimensions >= 1 and all cell lists (any insertion history)", "why_tests_cant": "the recursive compression with offsets has to be right for every nesting of rows, not for sampled meshes", "anchors": ["include/samurai/level_cell_array.hpp: LevelCellArray(LevelCellList), init_from_level_cell_list", "include/samurai/level_cell_list.hpp"]}
{"id": "C07", "title": "Every constructed LevelCellArray is well formed", "statement": "In a LevelCellArray built from a LevelCellList, in every dimension intervals of one row are non-empty, increasing and separated, and each row's slice of the next dimension designated by the offsets is in bounds and slices are consecutive and cover the whole next dimension.", "quantifier": "all dimensions, all cell lists", "why_tests_cant": "structural invariant over unbounded nested data", "anchors": ["include/samurai/level_cell_array.hpp: init_from_level_cell_list, m_offsets"]}
{"id": "C08", "title": "Iteration visits every cell exactly once, in lexicographic order, with the right coordinates", "statement": "for_each_interval / begin()..end() on a LevelCellArray enumerates intervals whose cells, paired with the reported (y,z) index, are exactly the cells of the array, each once, ordered by (z,y,x).", "quantifier": "all dimensions and all cell lists in which every created row holds at least one interval", "why_tests_cant": "iterator carries over in several dimensions at once; unbounded meshes", "anchors": ["include/samurai/level_cell_array.hpp: LevelCellArray_iterator::operator++, cbegin, cend", "include/samurai/algorithm.hpp: for_each_interval, for_each_cell"]}
{"id": "C09", "title": "Iteration is also right when a row of the cell list is empty", "statement": "Same as C08 without assuming that every created row is non-empty (lcl[{y}] creates a row even if nothing is added to it).", "quantifier": "all cell lists including those with empty rows", "why_tests_cant": "needs an adversarial history that tests do not contain", "anchors": ["include/samurai/level_cell_array.hpp: LevelCellArray_iterator::operator++", "include/samurai/level_cell_list.hpp: operator[]"]}
{"id": "C10", "title": "find / get_index locate a cell iff it exists", "statement": "find(lca, coord) returns the position of the x-interval containing the cell if the cell is in the array and -1 otherwise; the binary search used agrees with linear search.", "quantifier": "all well-formed arrays, all dimensions, all coordinates", "why_tests_cant": "binary search boundary errors show only for particular sizes and positions", "anchors": ["include/samurai/algorithm.hpp: find, find_impl, my_binary_search, interval_search", "include/samurai/level_cell_array.hpp: get_index, get_interval"]}
{"id": "C11", "title": "update_index numbers the cells bijectively", "statement": "After update_index, get_index is a bijection from the cells of the array onto [0, nb_cells()), increasing along iteration order and consecutive inside an interval.", "quantifier": "all well-formed arrays, all dimensions", "why_tests_cant": "bijectivity over arbitrary arrays", "anchors": ["include/samurai/level_cell_array.hpp: update_index, get_index, nb_cells"]}
{"id": "C12", "title": "CellArray numbering is a bijection across levels", "statement": "After CellArray::update_index, the index of (level, cell) is a bijection from all cells of all levels onto [0, nb_cells()), so a field of that size has exactly one slot per cell.", "quantifier": "all multi-level arrays, empty levels included", "why_tests_cant": "interaction of min_level/max_level and empty levels; unbounded", "anchors": ["include/samurai/cell_array.hpp: update_index, min_level, max_level, nb_cells, get_index"]}
{"id": "C13", "title": "Iterator decrement undoes increment", "statement": "For every position before end(), ++ followed by -- gives back the same position (same interval and same (y,z) index), and walking from begin() reaches end() after exactly as many steps as there are x-intervals.", "quantifier": "all well-formed arrays with non-empty rows, all positions", "why_tests_cant": "carry/borrow over nested dimensions", "anchors": ["include/samurai/level_cell_array.hpp: LevelCellArray_iterator::operator++, operator--"]}
{"id": "C14", "title": "A LevelCellArray built from a box contains exactly the box", "statement": "LevelCellArray(level, Box{min,max}) contains a cell iff min[d] <= coord[d] < max[d] for all d, and its cell indices are already the numbering of C11.", "quantifier": "all dimensions, all integer boxes with min < max", "why_tests_cant": "dimension-recursive loops; unbounded boxes", "anchors": ["include/samurai/level_cell_array.hpp: init_from_box"]}
{"id": "C15", "title": "Equality of LevelCellArrays is equality of cell sets", "statement": "lca1 == lca2 for arrays built from cell lists (without empty rows) holds iff they have the same level and contain the same cells.", "quantifier": "all pairs of cell lists", "why_tests_cant": "needs canonicity of the representation for all histories", "anchors": ["include/samurai/level_cell_array.hpp: operator==", "include/samurai/interval.hpp: operator=="]}
{"id": "C16", "title": "nb_cells counts the cells", "statement": "nb_cells() is the number of distinct cells of the array, and min_indices/max_indices bound all cells tightly in x.", "quantifier": "all well-formed arrays", "why_tests_cant": "cardinality over unbounded sets", "anchors": ["include/samurai/level_cell_array.hpp: nb_cells, min_indices, max_indices"]}
{"id": "C17", "title": "Set algebra on one level is pointwise boolean algebra", "statement": "For any nesting of intersection, union_, difference and translate over LevelCellArrays of one level, applying the expression calls the function on intervals that cover exactly the cells satisfying the corresponding boolean combination, no cell being visited twice, in lexicographic order.", "quantifier": "all dimensions, all expression trees (n-ary operators), all well-formed arrays", "why_tests_cant": "the merge scan over several cursors in several dimensions; infinitely many expressions", "anchors": ["include/samurai/subset/subset_op_base.hpp: subset_operator::apply, sub_apply, eval, update, min, max", "include/samurai/subset/subset_node.hpp", "include/samurai/subset/subset_op.hpp"]}
{"id": "C18", "title": "Set algebra between levels and .on(level)", "statement": "With operands on different levels and .on(ref), each operand is first projected to min(ref, finest operand level) (a coarse cell belongs to the projection iff one of its descendants belongs to the operand, a fine cell iff its ancestor does), the boolean combination is taken there, and if ref is finer the result is refined; the calls enumerate exactly that set.", "quantifier": "all dimensions, all levels and ref levels, all expressions", "why_tests_cant": "level differences, negative coordinates and row merging combine", "anchors": ["include/samurai/subset/subset_node.hpp: decrement_dim, update, set_shift", "include/samurai/subset/subset_op_base.hpp: sub_apply, on, init"]}
{"id": "C19", "title": "translate moves cells by the vector", "statement": "translate(lca, v) contains c iff lca contains c - v; it commutes with intersection, union and difference; translating back gives the original set.", "quantifier": "all arrays, all vectors, all dimensions", "why_tests_cant": "sign conventions per dimension, nested in expressions", "anchors": ["include/samurai/subset/node_op.hpp: translate_op, translate"]}
{"id": "C20", "title": "A subset can be applied repeatedly", "statement": "Calling the same subset object several times, with any functions in between, enumerates the same intervals each time; the result does not depend on what the object did before.", "quantifier": "all expressions, all previous cursor states", "why_tests_cant": "hidden cursor state; must hold for every history", "anchors": ["include/samurai/subset/subset_op_base.hpp: operator(), reset", "include/samurai/subset/subset_node.hpp: reset"]}
{"id": "C21", "title": "The scan of a subset terminates", "statement": "apply terminates on all well-formed operands; the number of scan steps per row is at most the number of interval bounds of the operands in that row.", "quantifier": "all expressions and operands", "why_tests_cant": "termination for all inputs", "anchors": ["include/samurai/subset/subset_op_base.hpp: apply", "include/samurai/subset/subset_node.hpp: update"]}
{"id": "C22", "title": "LevelCellArray built from a subset holds exactly the subset", "statement": "LevelCellArray(expr) contains a cell iff the expression contains it (level = expr.level()); so materialising a sub-expression does not change the value of an enclosing same-level expression.", "quantifier": "all expressions", "why_tests_cant": "composition of enumeration and construction for all inputs", "anchors": ["include/samurai/level_cell_array.hpp: LevelCellArray(subset_operator)", "include/samurai/subset/subset_op_base.hpp"]}
{"id": "C23", "title": "contraction and expand", "statement": "contraction(lca, w, dir) keeps exactly the cells c with c-w and c+w (in the selected directions) in lca; expand gives the union of the translates.", "quantifier": "all arrays, widths and directions", "why_tests_cant": "combination of generic operators", "anchors": ["include/samurai/subset/node_op.hpp: contraction, expand"]}
{"id": "C24", "title": "Projection node operator keeps all covered cells", "statement": "projection(lca, level) used inside an expression denotes the cells of the given level covered by lca (coarse: having a descendant; fine: having the ancestor).", "quantifier": "all arrays and levels", "why_tests_cant": "rounding of odd/negative bounds", "anchors": ["include/samurai/subset/node_op.hpp: projection_op, projection"]}
{"id": "C25", "title": "Union mesh holds exactly the ancestors of finer cells", "statement": "After mesh construction, the union at level l contains a cell iff some leaf at a level > l is a descendant of it.", "quantifier": "all multi-level meshes, all dimensions, all level ranges", "why_tests_cant": "induction over levels; tests only a few", "anchors": ["include/samurai/mesh.hpp: construct_union"]}
{"id": "C26", "title": "Subdomain is the projection of all leaves", "statement": "The subdomain is the set of cells of its level that descend from (or are) a leaf: it covers exactly the region of the leaves.", "quantifier": "all multi-level meshes", "why_tests_cant": "all meshes, not sampled ones", "anchors": ["include/samurai/mesh.hpp: construct_subdomain"]}
{"id": "C27", "title": "All sub-meshes share the reference numbering", "statement": "After construction, for every sub-mesh included in the reference mesh and every cell of it, the index stored in the sub-mesh interval equals the index of that cell in the reference mesh; hence a field is addressed consistently from any sub-mesh.", "quantifier": "all meshes and sub-meshes with every sub-mesh interval inside a reference interval", "why_tests_cant": "aliasing between numberings on arbitrary meshes", "anchors": ["include/samurai/mesh.hpp: renumbering, get_interval", "include/samurai/uniform_mesh.hpp: renumbering"]}
{"id": "C28", "title": "field(level, interval, index) addresses the cells of that interval", "statement": "If all cells of the interval (shifted and strided as used in operators) belong to the reference mesh row, the k-th element of the view is the storage of the k-th cell; distinct cells have distinct storage inside [0, nb_cells).", "quantifier": "all meshes, intervals, steps", "why_tests_cant": "out-of-bounds/aliasing only for particular meshes", "anchors": ["include/samurai/field.hpp: operator()(level, interval, index)", "include/samurai/mesh.hpp: get_interval", "include/samurai/level_cell_array.hpp: get_interval"]}
{"id": "C29", "title": "Uniform mesh ghosts are the full dilation of the cells", "statement": "cells_and_ghosts of a UniformMesh is exactly the set of cells at Chebyshev distance <= ghost_width of a cell.", "quantifier": "all cell lists, dimensions and ghost widths >= 0", "why_tests_cant": "unbounded meshes and widths", "anchors": ["include/samurai/uniform_mesh.hpp: update_sub_mesh", "include/samurai/static_algorithm.hpp: static_nested_loop"]}
{"id": "C30", "title": "static_nested_loop enumerates the full stencil box once", "statement": "static_nested_loop<n, b, e> calls the function exactly once for every vector of [b,e)^n, in lexicographic order with the first component fastest or as specified.", "quantifier": "all n and bounds", "why_tests_cant": "recursion on dimension", "anchors": ["include/samurai/static_algorithm.hpp: static_nested_loop"]}
{"id": "C31", "title": "Mesh adaptation keeps the domain covered exactly once", "statement": "If tags are consistent (every leaf carries keep, refine or coarsen; siblings coarsen together), the mesh built by update_field has the same covered region as before and no two leaves overlap; without consistency this can fail.", "quantifier": "all meshes that are partitions, all consistent tag assignments, all dimensions", "why_tests_cant": "all tag histories over unbounded meshes", "anchors": ["include/samurai/algorithm/update.hpp: update_field, update_field_mr", "include/samurai/cell_flag.hpp"]}
{"id": "C32", "title": "Adaptation respects min_level and max_level", "statement": "update_field never creates a leaf coarser than min_level or finer than max_level if the old mesh had none.", "quantifier": "all meshes and tags", "why_tests_cant": "all tags", "anchors": ["include/samurai/algorithm/update.hpp: update_field, update_field_mr"]}
{"id": "C33", "title": "Sibling consistency of tags after the keep/coarsen reduction", "statement": "After the `maximum` operator on a complete sibling group: either all siblings keep the coarsen flag or none does; if one has keep then all have keep and the parent has keep; a parent of a fully coarsened group has keep. The operation is idempotent.", "quantifier": "all 2^dim flag combinations of all siblings, any flag bits", "why_tests_cant": "flag space is finite per group but order of groups and repeated application is not", "anchors": ["include/samurai/mr/operators.hpp: maximum_op"]}
{"id": "C34", "title": "Graduation check is exact", "statement": "is_graduated(mesh, stencil) holds iff no leaf is within the stencil of a leaf that is two or more levels finer.", "quantifier": "all meshes, stencils", "why_tests_cant": "all pairs of levels", "anchors": ["include/samurai/graduation.hpp: is_graduated"]}
{"id": "C35", "title": "make_graduation yields a graduated mesh covering the same region", "statement": "When make_graduation returns, the mesh is graduated, covers the same region without overlap, never coarsens a leaf, and it does return.", "quantifier": "all meshes that are partitions", "why_tests_cant": "fixpoint loop; termination", "anchors": ["include/samurai/graduation.hpp: make_graduation", "include/samurai/algorithm/graduation.hpp"]}
{"id": "C36", "title": "Projection and prediction conserve the integral", "statement": "For every stencil order and dimension 1 to 3, the mean of the predicted children equals the parent value, and projecting a predicted field gives back the coarse field.", "quantifier": "all field values (exact arithmetic), all orders 0 to 5, dimensions 1 to 3", "why_tests_cant": "algebraic identity over all reals; tests use particular data and floating point", "anchors": ["include/samurai/numeric/prediction.hpp: prediction_op, Qs_i, Qs_j, Qs_k, prediction_coeffs", "include/samurai/numeric/projection.hpp: projection_op_"]}
{"id": "C37", "title": "1D prediction of order s is exact on cell averages of polynomials of degree <= 2s", "statement": "Predicting from exact cell averages of a polynomial of degree at most 2s gives the exact averages of the children.", "quantifier": "all polynomials of degree <= 2s, all positions, s = 0..5", "why_tests_cant": "all polynomials", "anchors": ["include/samurai/numeric/prediction.hpp: prediction_coeffs, interp_coeffs, prediction_op"]}
{"id": "C38", "title": "Multi-dimensional prediction is the tensor product of the 1D one", "statement": "In 2D and 3D the prediction operator reproduces (averages of) products of polynomials of degree <= 2s in each variable, as the 1D operator does.", "quantifier": "all such polynomials", "why_tests_cant": "sign errors of cross terms are invisible on smooth tests at coarse tolerance", "anchors": ["include/samurai/numeric/prediction.hpp: prediction_op Dim<2>, Dim<3>"]}
{"id": "C39", "title": "Level-based prediction on any interval is the cellwise formula", "statement": "prediction with dest_on_level=false on any interval (odd or even bounds) writes into each cell of the interval the value the cellwise formula gives for its parent and parity.", "quantifier": "all intervals and orders", "why_tests_cant": "index arithmetic on odd/even views for all bounds", "anchors": ["include/samurai/numeric/prediction.hpp: prediction_op<..., false>"]}
{"id": "C40", "title": "Adaptation conserves the field integral", "statement": "When a field is transferred from the old to the new mesh by copy, projection (coarsened cells) and prediction (refined cells), the sum of value times cell volume is unchanged and cells kept have unchanged values.", "quantifier": "all partition meshes, consistent tags, field values in exact arithmetic", "why_tests_cant": "global invariant over all meshes", "anchors": ["include/samurai/algorithm/update.hpp: update_fields, update_field_mr", "include/samurai/numeric/projection.hpp", "include/samurai/numeric/prediction.hpp"]}
{"id": "C41", "title": "Parallel traversal does not depend on the schedule", "statement": "for_each_cell with parallel execution and a function that writes only to the storage of its own cell gives the same field as the sequential traversal, for every interleaving of tasks.", "quantifier": "all task schedules, all meshes, all functions with that footprint", "why_tests_cant": "schedules cannot be enumerated by tests", "anchors": ["include/samurai/algorithm.hpp: parallel_for_each_cell, parallel_for_each_interval"]}
{"id": "C42", "title": "MPI ghost exchange pairs values with the right cells", "statement": "When two subdomains exchange ghosts, the sender packs and the receiver unpacks values in the same cell order, so each received value lands in the cell it was read from, and nothing else is written.", "quantifier": "all pairs of subdomain meshes, all field values", "why_tests_cant": "all meshes and rank pairs", "anchors": ["include/samurai/algorithm/update.hpp: update_ghost_subdomains"]}
{"id": "C43", "title": "Mesh partition over ranks covers all cells exactly once", "statement": "partition_mesh distributes the cells of the box among the MPI ranks so that every cell belongs to exactly one rank.", "quantifier": "all boxes, dimensions and numbers of ranks", "why_tests_cant": "remainders of divisions for all sizes", "anchors": ["include/samurai/mesh.hpp: partition_mesh"]}
{"id": "C44", "title": "Stencil iterator points at the translated cells", "statement": "At the k-th step of a stencil sliding in an interval, each entry refers to the cell origin + stencil vector with the index of that cell in the reference mesh.", "quantifier": "all meshes, intervals, stencils whose translated rows lie inside one reference interval", "why_tests_cant": "index arithmetic for all intervals", "anchors": ["include/samurai/stencil.hpp: IteratorStencil, for_each_stencil_sliding_in_interval", "include/samurai/indices.hpp"]}
{"id": "C45", "title": "Level-jump iterator pairs a fine cell with its coarse parent-side cell", "statement": "During the traversal of a fine interval, the coarse entry of the level jump iterator is always the parent of the current fine position.", "quantifier": "all fine intervals, all steps", "why_tests_cant": "parity of the start of the interval", "anchors": ["include/samurai/stencil.hpp: LevelJumpIterator", "include/samurai/interface.hpp"]}
{"id": "C46", "title": "Stencil rotation is an isometry mapping x to the direction", "statement": "convert_for_direction maps the first canonical vector to the given Cartesian direction and preserves scalar products, so no stencil points collapse.", "quantifier": "all stencils, all Cartesian directions, all dimensions", "why_tests_cant": "all vectors", "anchors": ["include/samurai/stencil.hpp: convert_for_direction, find_direction_index"]}
{"id": "C47", "title": "Every interior interface is visited exactly once", "statement": "On a graduated partition, for_each_interior_interface in a direction calls the function exactly once per pair of leaves sharing a face in that direction, with the right two leaves.", "quantifier": "all graduated meshes and directions", "why_tests_cant": "combinations of same level and level jumps on both sides", "anchors": ["include/samurai/interface.hpp: for_each_interior_interface"]}
{"id": "C48", "title": "Saving and restoring a mesh preserves its parameters", "statement": "Serialising a mesh and loading it gives a mesh with the same levels, periodicity, origin, scaling and cells; swapping two meshes exchanges all of their state.", "quantifier": "all meshes", "why_tests_cant": "every field must be covered, tests compare only some", "anchors": ["include/samurai/mesh.hpp: serialize, swap", "include/samurai/level_cell_array.hpp: serialize"]}
{"id": "C49", "title": "min_level and max_level of a CellArray bound its non-empty levels tightly", "statement": "If some level is non-empty, min_level is the smallest and max_level the largest non-empty level; iteration from begin to end over a CellArray visits all cells of all levels.", "quantifier": "all multi-level arrays", "why_tests_cant": "empty levels in between", "anchors": ["include/samurai/cell_array.hpp: min_level, max_level, CellArray_iterator"]}
{"id": "C50", "title": "Cell geometry: children tile their parent", "statement": "With cell_length = scaling / 2^level and corner = origin + length * index, the 2^dim children of a cell tile it exactly, and the cell containing a point at level l is the parent of the one at level l+1.", "quantifier": "all cells, levels, scalings (exact arithmetic)", "why_tests_cant": "all reals", "anchors": ["include/samurai/cell.hpp: cell_length, corner, center", "include/samurai/level_cell_array.hpp: get_cell"]}
{"id": "C51", "title": "The domain built on a box covers it within the tolerance", "statement": "approximate_box terminates; the cells of the LevelCellArray built on a box cover it, the excess is below one unit (given scaling factor) or within the relative tolerance (fitted scaling factor, the coarsest dyadic fraction of the shortest side that works), and the region covered does not depend on the level.", "quantifier": "all boxes, tolerances, levels, dimensions (exact arithmetic)", "why_tests_cant": "all reals; the loop is unbounded", "anchors": ["include/samurai/box.hpp: approximate_box", "include/samurai/level_cell_array.hpp: LevelCellArray(level, box, tol, scaling)"]}
{"id": "C52", "title": "Every boundary interface is visited exactly once, and every face is either interior or on the boundary", "statement": "for_each_boundary_interface in a direction calls the function exactly once per leaf whose neighbour cell in that direction has no point in the domain, with that leaf and the right stencil; if the domain is a union of cells of the leaf levels, each side of each leaf either is such a boundary or is shared with another leaf, never both.", "quantifier": "all meshes, levels, domains, directions", "why_tests_cant": "all shapes of domains, both directions, leaves at all levels", "anchors": ["include/samurai/interface.hpp: for_each_boundary_interface__direction, __opposite_direction, __both_directions", "include/samurai/boundary.hpp: boundary"]}
{"id": "C53", "title": "Explicit flux-based schemes are conservative across level jumps", "statement": "After apply_to, the value of every leaf times its volume is the sum over its faces of the flux through the face times the area of the face (the fine area at a level jump), each face counted once; all other cells stay at 0. With a conservative flux the sum over all leaves of volume times value is the sum of the boundary fluxes, and 0 without them; a constant flux gives 0 in every leaf.", "quantifier": "all graded meshes, flux functions, fields, dimensions (exact arithmetic)", "why_tests_cant": "all meshes and all flux functions; tests use a few schemes and tolerances", "anchors": ["include/samurai/schemes/fv/flux_based/flux_based_scheme__nonlin.hpp", "include/samurai/schemes/fv/flux_based/explicit_flux_based_scheme__nonlin.hpp", "include/samurai/schemes/fv/explicit_FV_scheme.hpp", "include/samurai/schemes/fv/flux_based/flux_definition.hpp"]}
{"id": "C54", "title": "The ghosts of a multiresolution mesh are those needed by stencils, projection and prediction", "statement": "MRMesh::update_sub_mesh_impl builds exactly: cells_and_ghosts = cells within max_stencil_width of a leaf of the same level; all_cells = those, plus the prediction stencils of uncovered ghosts and of the leaves' ancestors two levels below, plus the children of reference cells that contain finer leaves; proj_cells = the reference cells that contain finer leaves. Hence leaves have their whole stencil and the prediction stencils of their parents, the sub-meshes share the numbering of the reference, the children of a cell to project are all leaves or cells to project, and on a graded mesh filling a box each ghost to predict has its whole prediction stencil in the reference.", "quantifier": "all leaf sets, level ranges, dimensions, stencil widths and prediction orders (for the last claim: leaves touching by a corner differ by at most one level, and s <= 1 + w/2 or s + ceil(w/2) <= 3)", "why_tests_cant": "all meshes; tests check a few meshes with the default width and order", "anchors": ["include/samurai/mr/mesh.hpp: update_sub_mesh_impl", "include/samurai/mesh.hpp: construct_union, renumbering"]}
{"id": "C55", "title": "The ghosts after update_ghost_mr are projections, predictions and boundary values, and depend only on the leaves", "statement": "On a graded mesh filling a box, if the boundary conditions only change values outside the box, update_ghost_mr never reads or writes outside the storage, leaves the leaves unchanged, gives every stored cell with finer leaves the mean of its children (hence its value times volume is the sum over the leaves it contains), and every other stored cell of the box the prediction from its parent level. If the boundary conditions also fill the neighbours of the box as functions of the values in it, two fields with the same leaf values have the same ghosts in the box and around it after the update: nothing is read before it is computed.", "quantifier": "all graded meshes filling a box, all fields, level ranges, dimensions 1 to 3, prediction orders s and widths w of C54", "why_tests_cant": "all meshes and fields; a test cannot see a ghost that is read before it is written when it holds a plausible value", "anchors": ["include/samurai/algorithm/update.hpp: update_ghost_mr", "include/samurai/numeric/projection.hpp", "include/samurai/numeric/prediction.hpp", "include/samurai/bc.hpp: update_bc"]}
{"id": "C56", "title": "The boundary formulas are exact for polynomials up to their order", "statement": "DirichletImpl of order k assigns to its k ghosts the values of the polynomial of degree at most k whose cell values (at the centres) and boundary value it was given; NeumannImpl of order 1 is exact for degree 1 and its derivative; PolynomialExtrapolation with a stencil of size 2, 4, 6 is exact up to degree size - 2. These degrees cannot be increased.", "quantifier": "all polynomials, orders 1 to 4 and sizes 2, 4, 6, all cell lengths (exact arithmetic)", "why_tests_cant": "all polynomials; tests use a few fields with a tolerance", "anchors": ["include/samurai/bc.hpp: DirichletImpl, NeumannImpl, PolynomialExtrapolation"]}
{"id": "C57", "title": "The boundary conditions fill the outer ghosts of a multiresolution mesh", "statement": "On a graded mesh filling a box, with ghosts of width 1 and conditions of order 1, update_bc never accesses a value outside the storage and changes only stored values outside the box; the region Everywhere has each direction once, with the cells next to the boundary. In dimensions 1 and 2, with conditions on the whole boundary (or none), after update_ghost_mr the mean of the two cells of every boundary face is the Dirichlet value (their difference over the cell length is the Neumann value), on every level; the outer corner ghosts copy the corner cells; and all stored values within distance 1 of the box are functions of the leaves.", "quantifier": "all graded meshes filling a box, all levels, fields, values of the conditions; dimensions 1 to 3 for the storage claims, 1 and 2 for the values (false in dimension 3, refuted)", "why_tests_cant": "all meshes: a ghost that is never written keeps whatever the allocation or the previous step left there, which a test on one mesh does not see", "anchors": ["include/samurai/bc.hpp: update_bc, apply_bc_impl, __apply_bc_on_subset, apply_extrapolation_bc_impl, __apply_extrapolation_bc_on_subset, Everywhere", "include/samurai/algorithm/update.hpp: update_ghost_mr"]}
{"id": "C58", "title": "The graduation of the tags gives a graded mesh again", "statement": "On a graded mesh filling a box, with graduation_width 1 and tags that mark each leaf keep or coarsen (refine only with keep, below max_level), the coarsening graduation, the refinement graduation and the final maximum of mr/adapt.hpp never access a cell outside the storage. Afterwards exactly these leaves have refine: those asked for, those with a kept child position diagonally next to a leaf of the size of a child, and those touching a leaf to refine one level finer; exactly those are coarsened all of whose siblings are leaves without keep, away from finer leaves and from leaves to refine. The mesh built from these tags has exactly the resulting leaves, fills the same box without overlap, has its levels within the bounds, and leaves touching each other, even by a corner, differ by at most one level.", "quantifier": "all graded meshes filling a box, all tags as above, dimensions 1 to 3, level ranges, widths and orders of C54 (false for graduation_width 2, refuted)", "why_tests_cant": "all meshes and all combinations of tags; a bad gradation needs an unlucky combination of tags of neighbours at three levels", "anchors": ["include/samurai/mr/adapt.hpp: harten (L262-351)", "include/samurai/mr/operators.hpp: maximum, balance_2to1, extend, make_graduation", "include/samurai/algorithm/update.hpp: update_field_mr"]}
{"id": "C59", "title": "One iteration of the adaptation refines where the details are large and coarsens where they are small", "statement": "On a graded mesh filling a box, with graduation_width 1, min_level >= 1 and dim * (max_level - min_level) < 31, the details are computed without an access outside the storage and are the differences between the values and the predictions; they cancel over the children of a cell holding their mean, so in dimension 1 the coarsening criterion, which reads the first child only, sees both. The tags never access a cell outside the storage, and the new leaves are exactly: the children of the leaves whose detail exceeds 2^(regularity+dim) eps_l, or that touch a finer leaf that stays (only with enlarge) or that is refined; the parents of complete families of leaves with details below eps_l and parent detail below the keep threshold, away from refined cells and from leaves to refine (with enlarge: from leaves that stay); the other leaves unchanged.", "quantifier": "all graded meshes filling a box, all detail fields, eps, regularity, iterations, with and without enlarge, dimensions 1 to 3 (min_level 0 and larger level ranges fail, refuted)", "why_tests_cant": "all fields and meshes: the decision of a leaf depends on details of three levels and on chains of neighbours", "anchors": ["include/samurai/mr/adapt.hpp: harten (L197-351)", "include/samurai/mr/criteria.hpp: to_coarsen_mr, to_refine_mr", "include/samurai/mr/operators.hpp: compute_detail, keep_around_refine, enlarge", "include/samurai/algorithm/utils.hpp: tag_to_keep"]}
{"id": "C60", "title": "One iteration of the adaptation, and the whole loop, keep the mesh graded and conserve the field", "statement": "On a graded mesh filling a box, with graduation_width 1, min_level >= 1 and dim * (max_level - min_level) < 31, and boundary conditions that change only stored cells outside the box: one iteration (harten) succeeds for every field; its new mesh is again such a mesh, its leaves are those C59 describes from the details of the field; on a leaf that stays the value is unchanged, on a merged leaf (all of whose children were leaves) it is their mean, on a leaf of a refined one it is the prediction from the old field with its ghosts, and there are no other leaves; if the iteration reports no change the mesh is the old one; the sum of the values times the volumes is unchanged. Hence the loop (adapt) succeeds, ends on such a mesh and conserves the sum. A leaf coarsened away was predicted within the threshold of its level; a leaf whose prediction is off by more than the refinement threshold has all its children in the new mesh.", "quantifier": "all graded meshes filling a box, all fields, thresholds, regularities, iterations, dimensions 1 to 3, boundary conditions as stated (those of C57 in particular)", "why_tests_cant": "all fields and meshes, any number of iterations; a test sees neither conservation to the last digit nor a read of a stale ghost", "anchors": ["include/samurai/mr/adapt.hpp: Adapt::operator(), harten", "include/samurai/algorithm/update.hpp: update_field_mr, update_fields, update_ghost_mr", "include/samurai/mesh.hpp: construction from the cells, operator=="]}
{"id": "C61", "title": "A field the prediction reproduces is adapted to the coarsest mesh", "statement": "If the values of a field on the leaves are those of a family exact for the projection and the prediction (the averages of sums of polynomials of degree <= 2 * prediction_order in each variable are), and the boundary conditions extend that family into the ghosts the prediction reads, then for every positive threshold and every starting mesh the adaptation ends with exactly the cells of min_level, holding the values of the family. In particular for constants with no condition, the same Dirichlet value or a zero Neumann condition in dimensions 1 and 2, and for affine functions with Dirichlet or Neumann conditions in dimension 1.", "quantifier": "all such families, starting meshes, thresholds > 0, regularities, with and without enlarge; dimensions 1 to 3 for the general statement (for affine functions in dimension 2 it is false of the code, because of the copied corner ghosts: refuted)", "why_tests_cant": "all starting meshes and fields; in floating point a test has to choose a tolerance and cannot tell an exact reproduction from a small error", "anchors": ["include/samurai/mr/adapt.hpp: Adapt::operator(), harten", "include/samurai/mr/criteria.hpp", "include/samurai/numeric/prediction.hpp", "include/samurai/bc.hpp: apply_extrapolation_bc_impl"]}
{"id": "C62", "title": "The adaptation depends on the leaves and on the values on the leaves only, and detects an unchanged mesh", "statement": "On a mesh as in C60, with boundary conditions that also determine the stored outer ghosts the stencils read, and prediction_order <= max_stencil_width: if two fields agree on the leaves (whatever they contain elsewhere) one iteration gives the same flag, the same new mesh (the same array) and the same values on its leaves, and so does the whole adaptation; the cells the new values are computed from are all stored. An iteration reports an unchanged mesh exactly when the new leaves are the old ones (the comparison looks at intervals, steps and numbers, not at cells). With prediction_order 2 and max_stencil_width 1 the refinement reads cells inside the domain that are not stored: two fields equal on all stored cells give different values (refuted).", "quantifier": "all graded meshes filling a box, all pairs of fields, thresholds, iterations, dimensions 1 to 3; the conditions of C57 in dimensions 1 and 2", "why_tests_cant": "a stale or uninitialised ghost influences the result only for unlucky contents of the memory, and a test compares one run with itself", "anchors": ["include/samurai/mr/adapt.hpp: Adapt::operator(), harten", "include/samurai/algorithm/update.hpp: update_field_mr, update_fields, update_ghost_mr", "include/samurai/mesh.hpp: operator==", "include/samurai/mr/mesh.hpp: MRConfig::ghost_width (not used by update_sub_mesh_impl)"]}
{"id": "C63", "title": "Graduation of the tags of an AMR mesh closes the marks and gives a graded mesh", "statement": "For tags on an AMR mesh that fills a box, is graded by the stencil and whose reference has the margin of width graduation_width: graduation computes the least sets of leaves to refine (the marked ones, and the leaves of the level below that a step of the stencil from a leaf to refine leads to) and of cells to keep (the marked ones, parents of leaves, the cells within graduation_width of a leaf to refine, the siblings of a cell to keep, and those a step from a leaf to keep leads to), in one pass from the finest level down, and changes no other bit. If every leaf has a mark, the tags are consistent (a group of siblings is coarsened as a whole) and the mesh built from them by update_field has exactly the corresponding leaves, fills the same box without overlap, keeps the levels within the bounds and is graded by the same stencil. A graduation_width larger than the width of the ghosts writes tags outside the storage (refuted).", "quantifier": "all tags, all meshes graded by a stencil of unit steps (stars, boxes, diagonals as in the Weno demos), all levels and widths, dimensions 1 to 3", "why_tests_cant": "the chains of leaves that pull each other are as long as the number of levels; the meshes and tags are unbounded", "anchors": ["include/samurai/algorithm/graduation.hpp: graduation, graduate_op", "include/samurai/algorithm/utils.hpp: tag_to_keep, keep_around_refine", "include/samurai/algorithm/update.hpp: update_field"]}
{"id": "C64", "title": "The sub-meshes of an AMR mesh contain exactly the cells the projection, the prediction and the graduation use", "statement": "For an AMR mesh that fills a box of the domain with leaves of level at least 1: the ghosts are the margin of width ghost_width of the leaves plus the stencils of prediction_order around the parents of the cells to predict; the cells to project are the children of the cells of the margins that are split, and their descendants down to the leaves; the cells to predict are the cells of the margin inside the domain below a leaf; the reference is the ghosts and the cells to project. Hence the reference has the margin asked by graduation, a group is projected as a whole from stored cells that are leaves or projected themselves, and the prediction reads stored cells. With leaves of level 0 the construction indexes level -1 (refuted).", "quantifier": "all meshes filling a box, all widths and prediction orders, all levels and dimensions", "why_tests_cant": "the sub-meshes are unions of shifted and projected sets over all levels", "anchors": ["include/samurai/amr/mesh.hpp: Mesh::update_sub_mesh_impl", "include/samurai/amr/mesh.hpp: Config"]}
{"id": "C65", "title": "update_ghost puts the averages, the predictions and the boundary values in the ghosts of an AMR mesh", "statement": "On an AMR mesh that fills a box, is graded in all directions and has ghosts of width w >= 1 and a prediction of order s with 2 s <= w + 2, with boundary conditions that change only stored cells outside the box: update_ghost accesses no value outside the storage; leaves keep their values; a stored cell that contains finer leaves gets the mean of its children, hence the exact average of its leaves; a stored cell strictly inside a leaf gets the value predicted from the final values of the level below; values that are not stored do not change; on each level the conditions see the final values of the box. If the conditions fill the cells around the box, all stored values of the box are functions of the values of the leaves. With ghosts and prediction of width 1 the conditions of bc.hpp of order 1 meet these hypotheses (the second in dimensions 1 and 2) and give the outer ghosts the values of C57. On a mesh graded by the star stencil of the demos only, a ghost inside the box is predicted from a cell that never gets a value; with order 2 and width 2, from outer ghosts at a corner that are not filled (refuted).", "quantifier": "all graded meshes filling a box, all fields, widths, orders with 2 s <= w + 2, boundary conditions, levels, dimensions 1 to 3", "why_tests_cant": "a stale ghost changes the result only for unlucky contents of the memory; meshes and levels are unbounded", "anchors": ["include/samurai/algorithm/update.hpp: update_ghost", "include/samurai/amr/mesh.hpp: Mesh::update_sub_mesh_impl", "include/samurai/bc.hpp: update_bc", "include/samurai/numeric/projection.hpp", "include/samurai/numeric/prediction.hpp"]}
{"id": "C66", "title": "The adaptation loop of an AMR mesh keeps the grading and the integral, and at its end the criterion asks for nothing more", "statement": "On an AMR mesh that fills a box and is graded by the stencil of the graduation, with boundary conditions that change only stored cells outside the box and a criterion that marks every leaf: one iteration (update_ghost, criterion, graduation, update_field, with the ghosts updated before or after the criterion) succeeds; the next mesh is again such a mesh, with exactly the leaves the marks ask for after the closure of C63; a leaf that stays keeps its value, a merged one gets the mean, a refined one the prediction from the updated ghosts; the integral is unchanged; the flag is true exactly when the leaves are unchanged. The same holds after any number of iterations, and if the loop has ended the criterion on the final values asks for nothing more. The tags of the ghosts have no influence. With a grading in all directions and conditions that set the outer ghosts, mesh and values depend on the values of the leaves only. For the criterion of the level-set demo every leaf of the final mesh with |phi| below the bound is at max_level; for the one of the Burgers demo every leaf strictly between the levels has a slope at most the bound. With the star stencil of the level-set demo new leaves can depend on uninitialised memory, and the loop need not end: refuted by runs of the model.", "quantifier": "all meshes, fields, criteria, boundary conditions and numbers of iterations, dimensions 1 to 3; the determinacy with the boundary conditions of C57 in dimensions 1 and 2", "why_tests_cant": "any number of iterations on any mesh; an endless alternation and a read of uninitialised memory occur for special fields only", "anchors": ["demos/FiniteVolume/AMR_Burgers_Hat.cpp: AMR_criteria, adaptation loop (L54-102, L232-246)", "demos/FiniteVolume/level_set.cpp: AMR_criteria, adaptation loop (L80-117, L303-328)", "include/samurai/algorithm/update.hpp: update_field (L746-815), update_ghost", "include/samurai/algorithm/graduation.hpp: graduation"]}
{"id": "C67", "title": "A step of the finite volumes with flux correction is conservative", "statement": "On an AMR or multiresolution mesh that fills a box, where leaves with a common face have levels that differ by one at most, with the ghosts the mesh stores: the step unp1 = u - dt * op(u) followed by flux_correction succeeds and reads and writes stored cells only; cells that are not leaves keep their values; volume times the change of a leaf is minus dt times the sum over its faces of the area of the face times the flux, where the flux between two leaves is the one computed by the finer of them, so that both sides use the same; hence the sum of volume times value over the leaves changes by the fluxes through the boundary of the box only. For all fluxes between two neighbours (upwind advection, scalar Burgers, the Burgers hat demo when some leaf has max_level) and the level-set fluxes with uniform velocity. Not without the correction; not for the Burgers hat demo when no leaf has max_level (the correction uses another dx / dt); not for the level-set demo with a variable velocity.", "quantifier": "all meshes, fields, flux functions of two neighbours, time steps, levels and dimensions", "why_tests_cant": "the loss is of the size of the discretisation error and depends on the shape of the interfaces between the levels", "anchors": ["include/samurai/stencil_field.hpp: finite_volume, upwind_op, upwind_scalar_burgers_op", "demos/FiniteVolume/stencil_field.hpp: upwind_variable_op, upwind_Burgers_op", "demos/FiniteVolume/advection_2d.cpp: flux_correction", "demos/FiniteVolume/advection_1d.cpp: flux_correction", "demos/FiniteVolume/scalar_burgers_2d.cpp: flux_correction", "demos/FiniteVolume/AMR_Burgers_Hat.cpp: flux_correction, main", "demos/FiniteVolume/level_set.cpp: flux_correction", "include/samurai/field.hpp: operator=(field_expression)"]}
{"id": "C68", "title": "The time loops of the demos are conservative, end at Tf, and depend on the leaves only", "statement": "The loop while (t != Tf) of the finite-volume demos (adaptation, clock, update of the ghosts, step with flux correction, swap), on an AMR or multiresolution mesh with the hypotheses of C66 and C60, in exact arithmetic: no step fails or reads or writes outside the storage; after any number of steps the mesh is again such a mesh; the time is the initial time plus the sum of the dt used; the sum of volume times value over the leaves is the initial one minus the sum over the steps of dt times the fluxes through the boundary of the box (for the Burgers hat demo when every mesh has a leaf of max_level). With the multiresolution, if 0 < dt and t <= Tf the loop ends at Tf after exactly ceil((Tf - t) / dt) steps, each positive and at most dt. If moreover the boundary conditions fill the ghosts from the box, then two runs from the same values on the leaves, with anything in the ghosts and in the storage of unp1 after its resizes, make the same meshes at the same times and the same values on the leaves, with or without the correction.", "quantifier": "all meshes, fields, numbers of steps, Tf, dt, contents of the storage, flux functions of two neighbours; dimensions 1 to 3 (determinacy with the boundary conditions of C57: 1 and 2)", "why_tests_cant": "runs of any length on any sequence of meshes; the result of a test would have to be compared for all contents of uninitialised memory", "anchors": ["demos/FiniteVolume/AMR_Burgers_Hat.cpp: main (L229-274)", "demos/FiniteVolume/advection_1d.cpp: main (L187-216)", "demos/FiniteVolume/advection_2d.cpp: main (L240-268)", "demos/FiniteVolume/scalar_burgers_2d.cpp: main (L251-276)", "include/samurai/mr/adapt.hpp: Adapt::operator()", "include/samurai/algorithm/update.hpp: update_ghost, update_ghost_mr"]}
{"id": "C69", "title": "The copies of the periodic directions put in each ghost the value of its image inside the box, and join the tags of a ghost and its image", "statement": "For a box of the domain whose period on the level is at least the ghost width, and a storage that has, with each ghost outside in a periodic direction, its image by one period in this direction: update_ghost_periodic reads and writes stored cells only; each stored cell at most ghost_width away from the box gets the value its image inside the box (in all periodic directions at once, corners included) had before; so cells inside keep their values, as do cells further away and other levels. update_tag_periodic only adds tags that some image of the cell had, and the tags of a ghost and of its image inside the box are joined. On a level where the box is narrower than the ghost width the ghosts get old values of ghosts (counterexample).", "quantifier": "all boxes, storages, fields, tags, sets of periodic directions, ghost widths up to the period, levels and dimensions", "why_tests_cant": "corner ghosts get their values by several copies in a row, whose order matters; domains, widths and dimensions are unbounded", "anchors": ["include/samurai/algorithm/update.hpp: update_ghost_periodic (L498-590), update_tag_periodic (L592+)", "include/samurai/level_cell_array.hpp: min_indices, max_indices"]}
{"id": "C70", "title": "The mesh has the ghosts of the periodic directions", "statement": "For a multiresolution mesh with leaves in a box: the reference is exactly the cells wanted for the leaves (margin, stencils of the prediction), their images in the periodic directions taken one direction after the other within ghost_width of the two sides, and the children of the stored cells that contain finer leaves; the cells to project are the stored cells that contain finer leaves. Hence periodic directions only add cells; without any the mesh is the one of C54; each stored cell is an image of a wanted cell or below a stored cell with finer leaves; and on every level where the period is at least ghost_width, the image of each ghost of a periodic direction is stored, as C69 needs. The same for a uniform mesh, whose margin is enough.", "quantifier": "all leaves of any levels, boxes, sets of periodic directions, widths, prediction orders, dimensions", "why_tests_cant": "the sets depend on the whole tree of leaves and on all the levels; a missing ghost at a corner shows only for some trees", "anchors": ["include/samurai/mr/mesh.hpp: MRMesh::update_sub_mesh_impl (L245-308)"]}
{"id": "C71", "title": "With periodic directions the update of the ghosts gives means, predictions and copies across the boundary, determined by the leaves when all directions are periodic", "statement": "For a mesh that fills a box and is graded also across the periodic directions, with ghost width 1 or 2 and a prediction order up to it: update_ghost_mr with the copies of the periodic directions succeeds, reading and writing stored cells only; leaves keep their values; a stored cell with finer leaves gets the mean of its children; a stored cell strictly inside a leaf gets the prediction from the level below; a stored ghost across a periodic boundary (inside in the other directions) has the value of its image in the box; the boundary conditions are applied on final values. When all directions are periodic the boundary conditions do nothing and every value stored around the box is a function of the leaves. With one periodic direction out of two this is false: above the coarsest level the copies run before the boundary conditions, which leave out the diagonals, so a predicted value of the box depends on old values of corner ghosts (counterexample).", "quantifier": "all meshes of any levels graded on the torus, boxes, sets of periodic directions, widths 1 and 2, fields, previous contents of the ghosts, dimensions 1 to 3", "why_tests_cant": "the storage across the boundary depends on the whole tree; stale corner ghosts show only when memory holds something else; levels and sizes are unbounded", "anchors": ["include/samurai/algorithm/update.hpp: update_ghost_mr (L90-141), update_ghost_periodic (L498-590)", "include/samurai/bc.hpp: L906-915, L996-1005", "include/samurai/mr/mesh.hpp: update_sub_mesh_impl (L245-308)"]}
{"id": "C72", "title": "The prediction over several levels is the tensor interpolation, exact on polynomials, conservative, independent of the earlier calls and read from at most 2 order cells away", "statement": "prediction<order>(level, i, j, k) of reconstruction.hpp, whatever was called before (its results are kept in a static map): the returned map holds each coarse cell once, is the same as without earlier calls, and stands for the one-dimensional interpolation applied level after level and direction after direction. Hence portion(f, level, i, delta_l, ii) is exact on sums of products of polynomials of degree at most 2 order in each direction (means over cells), the mean over all the sub-cells of a cell is the value of the cell, and the cells read are at most 2 order cells away however many levels (reached from two levels on with order 1). In one dimension it is what the prediction operator gives level after level; in two dimensions it is not (counterexample: one level, order 1, the cross term of the operator has the opposite sign).", "quantifier": "all orders up to 5, numbers of levels, indices (also negative), dimensions, fields, histories of calls", "why_tests_cant": "the memory makes each result depend on all the earlier calls; exactness and conservation are identities for every number of levels", "anchors": ["include/samurai/reconstruction.hpp: prediction_map (L15-115), prediction (L160-285), portion (L427-1044)", "include/samurai/numeric/prediction.hpp: interp_coeffs (L16-71)"]}
{"id": "C73", "title": "The portion of a field over a block of sub-cells is the sum over the block as long as each level is used with one number of levels", "statement": "portion(f, level, i, delta_l, ii, jj) with intervals keeps the sum of the maps in a static map. If the earlier calls used on each level always the same delta_l, the result is the sum of the interpolated values over the sub-cells of the block. The key does not contain delta_l: after a call with another delta_l on the same level and block, the sum of that call is returned (counterexample).", "quantifier": "all orders up to 5, levels, blocks, dimensions, fields, histories of calls", "why_tests_cant": "a wrong value needs two calls that differ only in the number of levels", "anchors": ["include/samurai/reconstruction.hpp: portion_impl with intervals (L450-478, L501-528, L555-590, L616-650, L679-717, L744-782)"]}
{"id": "C74", "title": "The reconstruction on the finest level is defined, exact on polynomials and conservative when the margin is twice the order", "statement": "reconstruction(field) on a multiresolution mesh whose leaves fill a box, with margin at least 2 order: all the accesses are to stored cells, whatever was predicted before; each cell of the finest level lies under exactly one leaf and gets the value interpolated, level after level, from the values on the level of that leaf; the mean over the sub-cells of a leaf is the value of the leaf, the total is the total over the leaves weighted by the volumes; the means of sums of products of polynomials of degree at most 2 order per direction are reproduced. With the default margin (equal to the order 1) a leaf two levels above the finest reads a cell that is not stored (counterexample).", "quantifier": "all meshes tiling a box, levels, dimensions, orders up to 5, margins, fields, histories of the static map", "why_tests_cant": "depends on the whole tree and on every earlier prediction", "anchors": ["include/samurai/reconstruction.hpp: reconstruction_op_ (L287-389), reconstruction (L399-425)", "include/samurai/mr/mesh.hpp: update_sub_mesh_impl (L136-), ghost_width (L50)"]}
{"id": "C75", "title": "The transfer of a field between two meshes of the same box is the mean of the reconstruction, is exact on polynomials and keeps the total", "statement": "transfer(src, dst) between two multiresolution meshes whose leaves fill the same box, margin of the source at least 2 order: all the accesses are to stored cells, whatever was predicted before; a leaf of the destination gets the value of the same leaf of the source, the value predicted from the coarser leaf that contains it, or the mean of the finer leaves in it, the other cells get 0; its value is the mean over its sub-cells of the reconstruction of the source on any level finer than both meshes; the total weighted by the volumes is kept; sums of products of polynomials of degree at most 2 order per direction are transferred exactly. With the default margin (equal to the order 1) a leaf two levels below a leaf of the source reads a cell that is not stored (counterexample).", "quantifier": "all pairs of meshes tiling a box, levels, dimensions, orders up to 5, margins, fields, histories of the static map", "why_tests_cant": "depends on two trees and on every earlier prediction", "anchors": ["include/samurai/reconstruction.hpp: transfer (L1047-1193)", "include/samurai/mr/mesh.hpp: update_sub_mesh_impl (L136-), ghost_width (L50)", "demos/tutorial/proj_on_mesh.cpp (L57-75)", "demos/FiniteVolume/lid_driven_cavity.cpp (L384)"]}
{"id": "C76", "title": "Linear flux-based schemes by intervals compute the balance of fluxes, are conservative and independent of the number of threads", "statement": "Explicit linear homogeneous flux-based schemes, which work on whole intervals of interfaces and pair the fine cells of a level jump: on a graded mesh whose coarse leaves have families of fine neighbours, every interval of a level jump has one cell or an even number of cells (the assertions of the code hold); the value of a leaf times its volume is the sum over its faces of area times the sum of coefficient times value over the stencil, with the coefficients of the finer side; other cells get 0; the total is the flux through the boundary; the output is linear in the field; constants are in equilibrium; in the parallel context all accesses to the local vectors are inside and any order of the atomic additions gives the sequential result. The coefficients of diffusion, divergence, gradient and scalar upwind convection are the expected ones. Counterexamples: convection_upwind of a field with several components transports component d in all components; without families of fine cells the assertion fails, and without assertions the scheme is not conservative.", "quantifier": "all meshes, dimensions, stencils, coefficients, numbers of components, fields, orders of the atomic additions", "why_tests_cant": "the number of interfaces of an interval depends on the mesh, and the order of the additions on the scheduler", "anchors": ["include/samurai/schemes/fv/flux_based/flux_based_scheme__lin_hom.hpp (L60-196)", "include/samurai/schemes/fv/flux_based/explicit_flux_based_scheme__lin_hom.hpp (L38-314)", "include/samurai/interface.hpp: Get::Intervals (L53, L132, L215, L373)", "include/samurai/schemes/fv/operators: diffusion.hpp, divergence.hpp, gradient.hpp, convection_lin.hpp (L15-80)"]}
{"id": "C77", "title": "The ghosts of a linear system are eliminated: the loop stops and the combinations say the same as the projection and prediction equations", "statement": "The recursion computed before the assembly of a matrix: a cell of the reference mesh gets a linear combination exactly when it is a projection ghost (it has a leaf as a child) or a prediction ghost (its parent is a leaf), never when it is a leaf; the while loop which replaces ghosts by their combinations stops, after a number of passes at most logarithmic in the number of levels, although the map is changed while it is traversed; afterwards no combination contains a ghost; a vector satisfies the final combinations if and only if every projection ghost is the mean of its 2^dim children and every prediction ghost the interpolation of the neighbours of its parent; the values on the ghosts exist and are uniquely determined by the other cells.", "quantifier": "all meshes without overlap, dimensions 1 to 3, orders, vectors", "why_tests_cant": "termination of the loop depends on the absence of cycles between ghosts of all levels, for every mesh", "anchors": ["include/samurai/petsc/fv/FV_scheme_assembly.hpp (L101-160, prediction_linear_combination L807-1076)", "include/samurai/indices.hpp: for_each_projection_ghost_and_children_cells (L55), for_each_prediction_ghost (L161)"]}
{"id": "C78", "title": "The assembled linear system is the explicit scheme with the boundary equations", "statement": "The matrix assembled for a linear homogeneous flux-based scheme. Each component of each cell has its own row and column, without gap or collision. The product of the row of a leaf and of a vector is the value that the explicit application of the scheme gives on that leaf for the field represented by the vector, with ghosts of both kinds replaced by their combinations and whatever the vector contains on the ghosts; the rows of other cells are not touched by the scheme. After the boundary conditions and the diagonal of the remaining rows, with the right-hand side prepared for the solver: a vector solves the linear system if and only if the field satisfies the explicit scheme on every leaf with the given right-hand side, satisfies the discrete Dirichlet or Neumann equation of every boundary ghost, and the vector is 0 on all other cells.", "quantifier": "all meshes, dimensions 1 to 3, numbers of components, layouts, schemes with two-cell stencils (and wider ones whose boundary stencils contain no eliminated ghost), vectors, right-hand sides", "why_tests_cant": "the assembly and the explicit application are two separate codes, which must agree for every mesh and every vector", "anchors": ["include/samurai/petsc/fv/FV_scheme_assembly.hpp (L189-260, L372-647, L724-745)", "include/samurai/petsc/fv/flux_based_scheme_assembly.hpp (L135-219)", "include/samurai/petsc/matrix_assembly.hpp (L211-245)", "include/samurai/petsc/linear_solver.hpp (L173-188)", "include/samurai/schemes/fv/flux_based/flux_based_scheme__lin_hom.hpp"]}
{"id": "C79", "title": "The preallocation of the matrix is sufficient", "statement": "The number of coefficients announced to PETSc for each row, before the matrix is assembled, is computed without access outside of the array, and is at least the number of distinct columns in which the assembly sets a coefficient of that row, whatever the scheme, the mesh and the boundary conditions; so no row of the assembled matrix has more coefficients that are not 0 than announced (with MatSeqAIJSetPreallocation a row with more coefficients makes PETSc stop or allocate again).", "quantifier": "all meshes, dimensions 1 to 3, numbers of components, layouts, linear homogeneous flux-based schemes, boundary conditions enforced by equations, positions of the block in the matrix", "why_tests_cant": "the numbers are computed by loops separate from those of the assembly, and must bound them on every row of every adapted mesh, with all combinations of ghosts", "anchors": ["include/samurai/petsc/matrix_assembly.hpp (L164-206, L300-311)", "include/samurai/petsc/fv/FV_scheme_assembly.hpp (L268-363, L671-722)", "include/samurai/petsc/fv/flux_based_scheme_assembly.hpp (L62-129, L135-219)"]}
{"id": "C80", "title": "Multiples and sums of linear schemes compute the multiples and sums of the fields", "statement": "For linear homogeneous flux-based schemes: scalar * s computes scalar times the field of s, -s its opposite, s1 + s2 (same configuration) the sum of the two fields, and an OperatorSum (different configurations) the sum of the fields of its operators, whatever their stencils; the matrix assembled for an OperatorSum exists, its rows of leaves compute the explicit sum, and a vector solves the linear system exactly if the field satisfies the explicit sum with the given right-hand side and the boundary equations.", "quantifier": "all meshes, dimensions, scalars, numbers of operators, schemes, fields, layouts, boundary conditions enforced by equations", "why_tests_cant": "the operators are combined as functions and applied or assembled one after the other on every adapted mesh; a wrong combination only shows for particular stencils and coefficients", "anchors": ["include/samurai/schemes/fv/flux_based/algebraic_operators.hpp (L6-28, L84-103, L166-182)", "include/samurai/schemes/fv/scheme_operators.hpp (L36-49, L303-324)", "include/samurai/schemes/fv/explicit_operator_sum.hpp (L25-32)", "include/samurai/petsc/fv/operator_sum_assembly.hpp (L180-198, L234-258)"]}
{"id": "C81", "title": "The preallocation of the matrix of a sum of schemes is sufficient", "statement": "The number of coefficients announced for each row of the matrix of an OperatorSum is computed from the scheme with the largest stencil alone, while all schemes add to the matrix. No row of the assembled matrix has more coefficients than announced, provided that in each direction the stencils of the schemes are parts of the stencil of that scheme; the size of the stencils alone is not enough.", "quantifier": "all meshes, dimensions, numbers of operators, schemes with nested stencils, layouts, boundary conditions enforced by equations", "why_tests_cant": "which columns the other schemes use depends on the mesh (level jumps, eliminated ghosts, boundary); PETSc fails or slows down only for the rows with too many columns", "anchors": ["include/samurai/petsc/fv/operator_sum_assembly.hpp (L156-178, L180-189)", "include/samurai/stencil.hpp (L167-187)", "include/samurai/schemes/fv/flux_based/flux_definition.hpp (L244)", "include/samurai/schemes/fv/scheme_operators.hpp (L36-49)", "include/samurai/petsc/matrix_assembly.hpp (L164-206)", "include/samurai/petsc/fv/flux_based_scheme_assembly.hpp (L62-129)"]}
{"id": "C82", "title": "The blocks of a monolithic block matrix tile the matrix", "statement": "BlockAssembly<true>::reset() accepts the blocks exactly when the heights agree within each row of blocks and the widths within each column of blocks (zero blocks adapt to the others); then it places each block below all rows of blocks above and right of all columns of blocks before. For square block matrices every coefficient of the matrix is in exactly one block and no block leaves the matrix, and square diagonal blocks have row_shift = col_shift. For block matrices that are not square, matrix_rows() and matrix_cols() are not the size of the blocks.", "quantifier": "all numbers of rows and columns of blocks, all block sizes (including 0), all positions of the zero blocks", "why_tests_cant": "a wrong shift makes two blocks overwrite each other only for some block shapes; the examples use 2 x 2 blocks", "anchors": ["include/samurai/petsc/block_assembly.hpp (L61-88, L95-164, L497-523, L527-553)", "include/samurai/petsc/zero_block_assembly.hpp (L17-26)", "include/samurai/petsc/matrix_assembly.hpp (L26, L94-102, L164-173)"]}
{"id": "C83", "title": "The saved points and connectivity describe exactly the cells", "statement": "extract_coords_and_connectivity gives, for each cell in the order of for_each_cell, the numbers of 2^dim points which are the vertices of this cell in the order of the element; no point is written twice, every written point is a vertex of a cell, missing coordinates are 0, and two cells have a number in common exactly if they have a vertex in common. The element lists each vertex of the unit cell exactly once.", "quantifier": "all lists of cells of any levels, origins and scalings, in dimension 1, 2 and 3, all orders of iteration over the map of points", "why_tests_cant": "the saved files are looked at by eye; a wrong or a duplicated point is visible only in some cells, and the points shared across level jumps depend on the mesh", "anchors": ["include/samurai/hdf5.hpp (L61-83, L104-165)", "include/samurai/cell.hpp (L112-122)"]}
{"id": "C84", "title": "The Gauss-Legendre quadrature integrates polynomials of its degree", "statement": "For each degree up to 39, GaussLegendre<degree>::quadrature of a polynomial of at most this degree in each coordinate is its integral over the cell up to the rounding of the tabulated constants (1.08e-14 times the coefficients in the coordinates of the cell), in dimension 1, 2 and 3; make_field gives its mean value; GaussLegendre<0> is the value at the centre times the volume. From degree 40 on there is no rule.", "quantifier": "all degrees up to 39 (all tables), all polynomials of the degree, all cells, dimension 1 to 3; for the midpoint rule all functions", "why_tests_cant": "420 tabulated constants: a wrong digit changes the integrals by less than the tolerance of a test, and only degree 0 is used, by L2_error", "anchors": ["include/samurai/numeric/gauss_legendre.hpp (L12-18, L30-98, L100-602)", "include/samurai/field.hpp (L931-948)", "include/samurai/numeric/error.hpp (L16-58)"]}
{"id": "C85", "title": "The vectors of a monolithic block system are the fields one after the other", "statement": "For square block matrices, create_applicable_vector gives the vector of all fields one after the other in the order of the columns of blocks, create_rhs_vector that of all sources in the order of the rows, no copy leaves the vector, update_unknowns gives the fields back, update_result_fields the sources, and with at least two rows of blocks create_fields_IS gives for each field the positions of its values. With one row of blocks create_fields_IS leaves the indices uninitialized.", "quantifier": "all numbers of blocks, all sizes of fields (including 0), all values, all positions of the zero blocks", "why_tests_cant": "a wrong shift permutes or overwrites unknowns of some fields only; the demos use 2 x 2 blocks", "anchors": ["include/samurai/petsc/block_assembly.hpp (L701-744, L813-862)", "include/samurai/petsc/utils.hpp (L41-55, L93-111)"]}
{"id": "C86", "title": "The masks of the existing cells are complete and right", "statement": "exists(type, level, interval, index) returns one entry per position of the interval, true exactly for the positions of cells of the sub-mesh. MROMesh::exists does so when the step divides the size of the interval; otherwise, in particular for the even or odd elements of any interval, it writes after the end of the mask. MRMesh::exists returns inside its loop: only the first entry is written, and an empty interval leaves the function without a return.", "quantifier": "all dimensions, all histories of insertions, all intervals and steps, all rows", "why_tests_cant": "uninitialized memory and writes one entry after an allocation usually go unnoticed; no test calls these functions", "anchors": ["include/samurai/mr/mesh.hpp (L337-360)", "include/samurai/mr/mesh_with_overleaves.hpp (L249-271)", "include/samurai/interval.hpp (L136-166)"]}
