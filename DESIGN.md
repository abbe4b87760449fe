# Formal model of samurai: design

Source: `/repo` (hpc-maths/samurai, pinned commit), read as text. Model and proofs: `rocq/theories`,
Coq 8.16.1, standard library only.

## Trusted base

* Coq's kernel (no `-type-in-type`, no unset guard/universe checking, no plugins, no native code).
* No axioms: every property file ends with `Print Assumptions` for each theorem; the expected output is
  "Closed under the global context" for all of them. If a stdlib axiom is used it is listed in the table at the end.
* The hand translation C++ -> Gallina. Each definition cites the file and lines it mirrors.
* Not modelled anywhere: machine integer overflow (`int` coordinates, `long long` indices: unbounded `Z`; the
  sentinel `INT_MAX` is modelled by an explicit constructor/value, see Subset), floating point rounding (numerics is
  done over an arbitrary-precision field), xtensor/HDF5/PETSc/MPI/OpenMP libraries themselves, template dispatch,
  memory management and aliasing, I/O.
* C++ undefined behaviour (out-of-range vector access) is a distinct outcome (`None`) in the model wherever
  the code indexes by computed offsets; theorems prove the outcome is `Some`.

## Layout

`XModel.v` contains definitions only, `XProofs.v` lemmas, `PropsX.v` the property theorems (short statement, `exact lemma`,
`Print Assumptions`) with an `Example` next to each theorem instantiating its hypotheses on a concrete non-trivial case.

## Plan per property

| id | model | proof |
|----|-------|-------|
| C01 C02 | `ListOfIntervals` as sorted list; `add_interval` loop by loop | induction on list; invariant `normal`; canonicity of normal lists |
| C03 C04 C05 | `Interval` record; shifts with `Z.shiftr/shiftl`, `/=` with floor | arithmetic (`lia` with div/mod); C05 is false as documented -> refutation + partial |
| C06 C07 C15 | `LevelCellList` = nested association lists indexed by dimension; `init_from_level_cell_list` as a recursion returning (cells, offsets) | induction on dimension and rows |
| C08 C09 C13 | iterator state (current interval per dim, offset position, y index); `++`/`--`; for_each_interval | refinement to nested traversal; C09 refuted with an empty row |
| C10 C11 C12 C16 | `lower_bound` loop as in libstdc++, `find_impl`, `update_index`, `nb_cells` | invariant of binary search; induction |
| C14 | `init_from_box` | induction on dimension |
| C17-C22 | `subset_node` cursor record per dimension, `decrement_dim`, `update`, `eval`, `min`, `max`; operator tree; `apply` with fuel | refinement cursor -> abstract scanner over projected row; scan correctness; induction on dimension |
| C23 C24 | builders on top of C17-C19; `projection_op` | corollaries; C24 refuted |
| C25 C26 | `construct_union`, `construct_subdomain` as level loops over set expressions | induction on levels using C18/C22 |
| C27 C28 | renumbering, get_interval, field view | from C10/C11 |
| C29 C30 | `static_nested_loop`, uniform mesh ghosts | induction on dimension |
| C31 C32 C40 | tags + `update_field` loop building a CellList; field transfer | partition argument on dyadic cells |
| C33 | flag algebra on sibling groups | bitwise |
| C34 C35 | `is_graduated`, `make_graduation` over cell sets | set semantics; measure for termination |
| C36-C39 | prediction/projection formulas over `Q` | ring; moment conditions |
| C41 | `ParModel`: one task per interval, a task is a list of atomic operations on a common store with local variables; a schedule is a list of choices (create next task / one operation of a task) | invariant on the remaining calls, preserved by every step; measure for termination |
| C42 | `MpiModel`: ranks with send/receive/wait code and FIFO channels, any interleaving and any amount of buffering; pack/unpack over set expressions | diamond property of steps; enumeration theorems of C18 |
| C43 C48 | `partition_mesh` arithmetic, list of serialised members | refutation + what does hold |
| C44-C46 | stencil iterators, rotation | arithmetic |
| C47 | `InterfaceModel`: for_each_interior_interface as set expressions and stencil iterators | from C18, C44 |
| C49 | level scans | arithmetic |
| C50 C51 | `GeomModel`: cell geometry and the domain built on a box, exact over `Q` | arithmetic |
| C52 | `FluxModel`: boundary sets (`boundary.hpp`) and boundary interfaces | from C18, C44; dichotomy interior/boundary from covering and alignment; refuted without alignment |
| C53 | `FluxModel`: non-linear flux-based schemes, `apply_to` over `Q` | from C47 and C52: sums over interfaces rearranged as sums over faces of leaves |
| C54 | `MrModel`: `MRMesh::update_sub_mesh_impl` without MPI and periodic directions | contents from C18, C25 and the calls made; closure claims from coverage and gradation (path argument); refuted for order 3 and width 1 or 2 |
| C55 | `GhostModel`: `update_ghost_mr` on one rank without periodic direction; a read or write outside the storage is `None`; boundary conditions as a parameter `bc` | C54 gives the stencils; the two level loops by induction with the values each level gets; determinacy by induction on the level |
| C56 | `GhostModel`: the assignments of `DirichletImpl`, `NeumannImpl`, `PolynomialExtrapolation` over `Q` | `field` on the coefficients of the polynomial; sharpness by evaluation on monomials |
| C57 | `GhostModel`: `update_bc`, `apply_bc_impl`, the extrapolation of corners and layers, `Everywhere` as written, on the sets of C18; stencil cells given by coordinates; conditions with a region given as arrays | `BcProofs`: what one call, one direction, one condition writes, by induction on the calls; then C55 with these conditions. Refuted: edges in dimension 3 (`C57_edges_refuted`), the static assertion on the number of ghost layers (`C57_assertion_refuted`) |
| C58 | `HartenModel`: lines 197-351 of `mr/adapt.hpp` (first tags, details, criteria, keep around refine, enlarge, both graduations, final maximum) with the operators of `mr/operators.hpp` as loops over the calls of the sets of C18, an access outside the storage being `None`; no periodic direction, one rank (so `update_tag_periodic`, `update_tag_subdomains`, `keep_only_one_coarse_tag` do nothing), scalar field | `HartenProofs*`: what one operator, one set, one level does to the tags, as a relation on tag fields; the two level loops as sequences of states; `refines` / `coarsens` by induction on the level; then C31-C33. Refuted for `graduation_width` 2 (`C58_width_refuted`) and for a width above the ghost width (`C58_storage_refuted`) |
| C59 | HartenModel: detail_op, compute_details, to_coarsen_mr, to_refine_mr, criteria, around, first_tags, harten_tags | The operators on rows are shown to apply one function of the old tag to the children of the visited parents (CriteriaProofs.rewrites), the margins to set one bit around flagged leaves (AroundProofs); with C58 this characterises the new leaves by the details alone (PropsDetail). Zero mean of the details from the formulas of the prediction |
| C60 | HartenModel: make_mesh, update_field_mr, harten, adapt_loop, adapt | One iteration puts together the numbering of the new mesh (LoopProofs), the ghosts (C55), the tags (C59), the transfer of the values (C40) and the equality of meshes; the loop is an induction with the invariant `usable`. Conservation composes the conservation of C40 |
| C61 | the same, with the prediction of NumModel and the conditions of GhostModel | The details vanish level by level (induction over the ghosts), so nothing is asked for, every leaf above min_level is quiet and the finest leaves merge; induction on the iterations. Instances from C37, C38 and the values of the outer ghosts of C57; the affine functions in dimension 2 are refuted by computation |
| C62 | the same | Two runs side by side: ghosts agree (C55), details agree where the criteria look, so the wishes, the flags of the leaves and the calls of update_cell agree and the new arrays are equal; induction on the iterations. For the flag: numbers are positions in the reference, which depends on the leaves only, and an array of step-1 intervals is determined by its cells and numbers. The case prediction_order > max_stencil_width is refuted by computation |
| C63 | algorithm/graduation.hpp L26-175 and the operators of algorithm/utils.hpp it applies, on a total tag field with checked storage (AmrModel) | Per level, each pass is the pointwise rule (apply_tags of C58); descending induction over the levels against two inductively defined closures; gradedness of the new leaves by cases refined / unchanged / coarsened. The stencil hypothesis (step_stencil) is proved for stars, boxes and diagonals in every dimension. graduation_width > ghost_width is refuted by computation |
| C64 | amr/mesh.hpp L98-221 (AmrModel) | Each level of each sub-mesh as a subset expression, denoted with the subset theorems (C17 to C24) and the union of C25; induction on the levels for the cells to project. Level 0 is refuted |
| C65 | algorithm/update.hpp L28-49 (`update_ghost` in AmrModel), with the boundary conditions of GhostModel | By the gradation every stencil of a prediction lies in the margin of the level below (`AmrProofs4.beside`), so it is read after it was computed; then as C55: the two loops by induction with the values each level gets, determinacy by induction on the level. Star gradation and corners with order 2 are refuted |
| C66 | the adaptation loops of the demos AMR_Burgers_Hat.cpp and level_set.cpp, `update_field` with the construction and comparison of meshes (AmrLoopModel) | One iteration from C63 to C65, C31 and the transfer lemmas of C60; the numbering of the new mesh as in C62; the loop by induction on the number of iterations with the invariant `amr_usable`; determinacy from C65_determined. The two criteria are computed cell by cell. Star stencil and endless loop refuted, the latter for every number of iterations through a cycle of length two |
| C67 | the operators of stencil_field.hpp (library and demos), the assignment of an expression to a field, the flux corrections of the demos (FvModel) | The correction sets by the subset theorems; a fold lemma for fields that add to each other; the three cases of a side of a leaf (box, one leaf, 2^n finer leaves) from the tiling and the grading; the sums by bijections between the children along a face and the finer cells across; cancellation by swapping a double sum. Any flux on which the two cells of a face agree, then instances. `C67_amr_mesh` and `C67_mr_mesh` give the hypotheses for the meshes of C64 and C54. Refuted: no correction, Burgers hat with max_level not reached, level set with variable velocity. |
| C68 | the time loops of the demos: clock, adaptation, ghosts, step, swap (TimeModel) | A generic loop over an adaptation and a scheme; induction over the steps with an invariant on the meshes; the list of the steps is an inductive relation `march`, the outflow a sum over it. Instances from C60, C62, C65, C66 and C67. The number of steps by the ceiling. Determinacy: the new values on the leaves are functions of the fluxes of C67, which read the leaves and their neighbours only, and those are determined by C65 and C55. `C68_burgers` has the hypothesis of C67 on max_level. Whether the AMR adaptation ends is not claimed (C66); exact arithmetic for the clock. |
| C69 | `PeriodicModel`: `update_ghost_periodic`, `update_tag_periodic` as loops over the calls of the sets of C18, an access outside the storage being `None` | one slab is a copy (`copies`), one direction a wrap in this direction, the directions by induction (`wrap` of the first d directions); the tags by the same induction with inclusions. Refuted when the period is below the ghost width |
| C70 | `PeriodicModel`: `update_sub_mesh_impl` with the loop L254-306 between the loops of C54 | the calls of a slab moved by the period (`image_spreads`); induction over the directions and levels; the last loop of C54 again for any base (`grown_spec`); closure: a direction is closed when its images are added, and later directions keep it closed |
| C71 | `PeriodicModel`: `update_ghost_mr_periodic`, `update_bc_periodic`; boundary conditions as a parameter that changes only ghosts outside in a direction that is not periodic | the leaves repeated by the periods are graded in the box widened without end (`PeriodicProofs3`), which gives the prediction stencils of the stored cells; the loops of C55 with the copies; determinacy by induction over levels. Refuted for one periodic direction of two (stale corner ghosts) |
| C72 | `ReconModel`: `prediction` passing the static map along, `portion` | the map is that of the recursion without memory (invariant on the memory); its sum against a field is the iterated tensor interpolation; exactness and conservation by induction on directions and levels from the one-dimensional identities of C37. Refuted: equality with the prediction operator in two dimensions |
| C73 | `portion_block` with its second static map | invariant on both memories when each level has one delta_l; refuted otherwise |
| C74 | `reconstruction_op`, `reconstruction`: strided destination, one addition per pair of the map, checks of every access | effect of one pair, one position, one call, one level; the fine cells of different leaves are disjoint (no overlap of the leaves), the cells read are in the margin (C54, C72). Refuted: margin equal to the order |
| C75 | `same_op`, `proj_op`, `pred_op`, `transfer_level`, `transfer`: one row at a time, views of the coarser row, checks of every access | effect of the three passes on one level (calls of the subsets, prediction of C72); the leaves of the destination are copied, predicted or split; sums over the cells of a level finer than both meshes. Refuted: margin equal to the order |
| C76 | `run`, `same_level_runs`, `level_jump_runs`, `lin_interior`, `lin_boundary`, `apply_run`, `run_updates`, `lin_apply_to`, coefficients of the operators | parity of the intervals of a level jump from the families of fine cells; the runs are the interfaces of C47/C52 grouped, hence equality with the scheme of C53 for the flux function that sums coefficient times value; effects are sums, hence linearity and independence of the order of the atomic additions. The boundary loop, which has no atomic addition, is only modelled sequentially. Refuted: upwind convection of vector fields; odd intervals |
| C77 | `projection_ghosts`, `prediction_ghosts`, `prediction_comb`, `initial_recursion`, `expand_comb`, `elim_pass`, `elim_loop`, `ghost_recursion` | the map as a sorted list changed in place; the loop with fuel. A rank on the ghosts (projection ghosts by distance to the finest level, then prediction ghosts by level) decreases along the combinations, and each pass doubles the decrease, hence termination; a replacement keeps the solutions of the equations; keys by the semantics of the subsets and the injectivity of the numbering |
| C78 | `data_index`, `mat_add`, `mat_insert`, `add_column`, `assemble_interface`, `assemble_boundary_interface`, `assemble_scheme`, `bc_calls`, `assemble_bc`, `insert_useless`, `assemble_matrix`, `enforce_bc`, `enforce_zero`, `zero_useless`, `prepare_rhs` | the product of a row and a vector is tracked through the calls of MatSetValue (each adds its coefficient times the combination of the column); the interfaces are matched with those of the explicit scheme (C47, C48, C76); ghosts by C77; distinct keys for INSERT_VALUES. C78_scheme is stated for any list of boundary calls with distinct ghosts, which are neither leaves nor eliminated ghosts; `C78_boundary_calls` proves that `bc_calls` gives such a list (one call per leaf of a region, the leaf, the cell behind it, the ghost), and `C78_problem` that a vector solves the system exactly when the scheme gives the right-hand side on the leaves and every boundary ghost meets the discrete Dirichlet condition (leaf + ghost) / 2 = value or Neumann condition ghost - leaf = h value. Hypotheses that remain: square diagonal block, regions of the conditions that do not share a ghost, ghosts of the conditions outside the domain |
| C79 | `sparsity_interface`, `sparsity_boundary_interface`, `sparsity_scheme`, `sparsity_bc`, `sparsity_ghosts`, `sparsity_useless`, `preallocation`; the positions of MatSetValue: `interface_positions`, `boundary_positions`, `bc_positions`, `useless_positions` | each loop adds a weight per position it announces (`counts_by`) or sets a row (`sets_to`); the preallocation iterates on the interfaces level by level and the assembly by kind, so the two lists are permutations of each other; the matrix is 0 outside of the positions (`frame`). Case analysis on the row: a leaf, a ghost of a boundary condition, another one. C79_nonzeros is stated on the entries of the assembled matrix only. Not modelled: boundary conditions enforced by elimination, block matrices (MatSetSizes of a nest), sums of operators (Assembly<OperatorSum>, which announces the numbers of the operator with the largest stencil only) |
| C80 | `lf_scale`, `scheme_scale`, `scheme_neg`, `lf_plus`, `scheme_plus`, `operators`, `lin_apply`, `sum_apply_to`, `operators_scale`, `largest_stencil_index`, `sum_assemble_scheme`, `sum_assemble_matrix` | the intervals of interfaces of two schemes and of their combination are the same, with combined coefficients (`lcomb`, `rcomb`, by induction on the levels), so the effects combine; a scheme adds to the output what it writes into 0 (`apply_adds`), hence the sums by induction on the operators; the matrix by induction on the operators from any matrix (`operator_facts`), then the boundary rows and the others as in C78. The matrix theorems need that every leaf has a face with a leaf or, with boundary fluxes, the boundary. C80_plus needs the same stencils, C80_plus_refuted shows that it fails otherwise. Not modelled: cell-based schemes, heterogeneous and nonlinear schemes in sums, names, is_spd/is_symmetric |
| C81 | `sum_preallocation`, `line_stencil_from`, `line_stencil` (with `preallocation`, `largest_stencil_index`, `sum_assemble_matrix`) | the interfaces of two schemes in one direction have the same sides (C47, C52) and the stencil around the same cell, so with nested stencils every call of the smaller one is `covered` by a call of the larger one and its positions are positions of the larger one; the matrix of the sum changes only at these positions (`sum_frame`, induction on the operators) and the rows are counted as in C79. C81_nested: the default line stencils of all sizes are nested, so no hypothesis on the stencils is left (C81_line_stencils). C81_sizes_refuted: with stencils of the same size that are not nested the numbers are too small |
| C82 | `for_each_block`, `block_rows`, `set_row`, `block_cols`, `set_col`, `check_and_set_sizes`, `shifts`, `reset`, `total_rows`, `total_cols` | loops over the rows and the columns of blocks: the fixed blocks are kept (`same`), so the size found for a row is the same before and after the other rows (`rows_loop`, `cols_loop`); shifts and totals by induction on the blocks, with the row and the column of the next block (`next_block`, `next_diagonal`); the tiling from the partition of an interval by partial sums. C82_rectangular_refuted: the size of block matrices that are not square. Not modelled: nested matrices (BlockAssembly<false>), vectors, what the zero blocks do in the loops over ghosts |
| C83 | `get_element`, `vertex`, `number_point`, `number_points`, `number_cells`, `set_coords`, `extract_coords_and_connectivity` | the map of points has its entries numbered in the order of insertion and pairwise distinct (`numbered`), and only grows (`extends`), by induction on the vertices and the cells; the loop that writes the coordinates has distinct indices, so its order is irrelevant (`write_spec`, for every permutation). Not modelled: rounding (the keys of the map are exact rationals; with double the same vertex computed from two levels may differ for scalings and origins that are not dyadic, then the point is written twice), extract_data, the XML and HDF5 files |
| C84 | `n_required_points`, `gl_table`, `gl_rule`, `gl_sum`, `quadrature`, `make_field_value` | the 20 tables, as exact decimals, are evaluated on all powers up to 2 n - 1 inside the proof (`tables_checked`, integers) and give the moments up to 4e-16; linearity and the product structure of the nested loops by induction on the dimension (`gl_polynomial`), the error of a product by induction (`products_error`). The integral is the sum of the products of the moments, the difference of t^(k+1)/(k+1) at the ends of [-1, 1]. Not modelled: rounding, several components (each is as one), the rest of L2_error (sum, square root) |
| C85 | `for_each_placed`, `copy_in`, `copy_out`, `put_fields`, `place_rhs`, `place_field`, `create_rhs_vector`, `create_applicable_vector`, `update_unknowns`, `update_result_fields`, `create_fields_IS` (with `reset`) | exactly one block passes the test of the inner loop (`fold_once`), its shift is the size of the fields before (`pre_fields`, C82), and the copies fill the vector from the left (`put_spec`, induction on the fields). C85_indices_refuted: one row of blocks. Not modelled: enforce_bc and the other changes of the right-hand side |
| C86 | `set_mask`, `empty_mask`, `mark`, `mark_all`, `mro_exists`, `mr_exists` (with `find` and `client_lca`) | induction on the number of entries still to write, the written ones first; `find` by C10. An entry not written is [None]. Simplified: an interval with end < start has an empty mask (the code converts the negative size to size_t) |

Everything in the list is expressible; those whose documented statement is false of the code are proved false
(`..._refuted`) with a witness, together with the strongest true variant (`..._partial`).

## What is modelled, file by file (paths under include/samurai)

| file | modelled in | left out |
|------|-------------|----------|
| interval.hpp | IntervalModel | overflow of `int`; printing |
| list_of_intervals.hpp | LoiModel | memory of the forward_list |
| level_cell_list.hpp, level_cell_array.hpp, algorithm.hpp (find, for_each_*) | LcaModel | origin_point/scaling_factor (GeomModel has them as arguments), printing, serialisation of the vectors themselves |
| cell_list.hpp, cell_array.hpp | CellArrayModel | max_size is an argument; `operator-` of iterators |
| subset/node_op.hpp, subset_node.hpp, subset_op_base.hpp, subset_op.hpp, static_algorithm.hpp | SubsetModel | lazy evaluation through tuples (a tree here), `operator()` with several functions (one after the other here) |
| stencil.hpp, indices.hpp | StencilModel | compile-time stencils (a list of vectors here) |
| interface.hpp, boundary.hpp | InterfaceModel, FluxModel, LinFluxModel (Get::Intervals) | |
| mesh.hpp, uniform_mesh.hpp, field.hpp (addressing) | MeshModel | timers, the xtensor expressions |
| box.hpp, cell.hpp | GeomModel | rounding; `1 << level` for level >= 31 |
| graduation.hpp | GradModel | |
| algorithm/graduation.hpp, amr/mesh.hpp; loops and criteria of demos/FiniteVolume/AMR_Burgers_Hat.cpp and level_set.cpp | AmrModel, AmrLoopModel | constructors of the mesh (MeshModel has those of the base class) |
| numeric/prediction.hpp, numeric/projection.hpp | NumModel | rounding; orders above 5 are not instantiated by the code |
| algorithm/update.hpp | AdaptModel (update_field, update_field_mr, update_fields), GhostModel (update_ghost_mr), AmrModel (update_ghost), MpiModel (update_ghost_subdomains, update_tag_subdomains), PeriodicModel (update_ghost_periodic, update_tag_periodic) | update_ghost_mro, update_overleaves_mr, keep_only_one_coarse_tag; several fields at once |
| mr/mesh.hpp | MrModel, PeriodicModel (ghosts of periodic directions) | ghosts of neighbouring ranks |
| bc.hpp | GhostModel | regions other than Everywhere; vector-valued fields |
| mr/operators.hpp, mr/criteria.hpp, algorithm/utils.hpp, mr/adapt.hpp, cell_flag.hpp | AdaptModel, HartenModel | operators not called by `Adapt` |
| schemes/fv/flux_based (non-linear and linear homogeneous, explicit) | FluxModel, LinFluxModel | linear heterogeneous schemes, Jacobians; SAMURAI_CHECK_NAN |
| schemes/fv/operators: diffusion, divergence, gradient, convection_lin (upwind) | LinFluxModel (coefficients) | Dirichlet enforcement, WENO, flux_divergence, identity, zero |
| algorithm.hpp (OpenMP traversal) | ParModel | the OpenMP runtime: any interleaving of atomic operations |
| stencil_field.hpp, demos/FiniteVolume/stencil_field.hpp | FvModel | upwind_op, upwind_scalar_burgers_op, upwind_variable_op, upwind_Burgers_op and finite_volume, on rationals and cell by cell (the code works on intervals); the velocities are values of cells. Not modelled: other operators of the demos |
| demos/FiniteVolume: flux_correction of advection_1d/2d, scalar_burgers_2d, AMR_Burgers_Hat, level_set | FvModel | one function of the dimension and the operator; the strided intervals 2 * i + 1 are replaced by the children of each cell |
| demos/FiniteVolume: main of AMR_Burgers_Hat, advection_1d, advection_2d, scalar_burgers_2d (the loop) | TimeModel | the time loop; files, options and output not modelled; non-periodic |
| algorithm/update.hpp (periodic copies), mr/mesh.hpp L245-308 | PeriodicModel (update_ghost_periodic, update_tag_periodic, the images added to the mesh, update_ghost_mr with the copies, update_bc skipping periodic directions) | one rank; in C54 to C68 the mesh has no periodic direction |
| reconstruction.hpp | `ReconModel`: prediction_map, prediction with its static map, portion with integers and with intervals, reconstruction_op_ and reconstruction, for one component and the cells of one position; the overloads for dimensions 1 to 3 are one function on lists of coordinates; `MeshTransferModel`: transfer. remove_small_entries, operator-, printing are not modelled |
| petsc/fv/FV_scheme_assembly.hpp, flux_based_scheme_assembly.hpp, matrix_assembly.hpp, linear_solver.hpp (assembly and right-hand side) | AssemblyModel | a matrix is a function from row and column to a rational; PETSc itself, block matrices, cell-based and linear heterogeneous assemblies, preallocation, non-linear solvers, multigrid are not modelled |
| the rest of petsc/, hdf5.hpp, io/*, mr/mesh_with_overleaves.hpp, timers.hpp, arguments.hpp, field_expression.hpp, numeric/gauss_legendre.hpp | - | not modelled |

Storage: in GhostModel and HartenModel a read or a write of a cell without a number in the reference mesh is an
error (`None`). The transfer of the values (`update_fields` in AdaptModel) is not checked in this way; that what it reads is stored is
the separate theorem C62_reads (C62_width_refuted when its hypothesis fails).

## Statements found false of the code

Each is a theorem with a computed witness (`..._refuted`); the note of the property says what remains true.

* C05: `Interval /=` with odd bounds. C13: `--` after `++` on the last position. C15: `==` compares indices and steps.
* C08, C09, C49: iteration of arrays without cells, with an empty row, with an empty level between two others.
* C19, C23, C24: `translate(translate(.))`, `expand`, `projection` from dimension 2 on.
* C28: views of step > 1 whose length is not a multiple of the step.
* C31, C33: adaptation with inconsistent tags; domains whose cells are not aligned with groups of siblings.
* C38, C39: mixed terms of the prediction in dimensions 2 and 3; SOA fields with several components.
* C42, C43: exchange of fields with several components; partition over ranks loses cells. C48: parameters not serialised.
* C44, C45: stencil over a gap of the row; level jumps from odd starts.
* C47, C52: ungraded or unaligned meshes miss interfaces.
* C54, C62: prediction stencils wider than `max_stencil_width` read cells that are not stored.
* C57, C61: edges and corners of the ghosts in dimension 3 and 2; conditions on wide stencils.
* C58: graduation_width 2. C59: min_level 0 indexes level -1; `1 << (dim * (max_level - level))` overflows.
* C63: graduation_width larger than the width of the ghosts writes outside the storage. C64: leaves of level 0 index level -1.
* C65: star gradation leaves a ghost of the box predicted from a cell without value; with order 2 the corner ghosts at the distances 1 and 2 are not filled.
* C66: with the star stencil of the level-set demo the values of new leaves can depend on uninitialised memory; the loop `while (true)` of the demos need not end.
* C67: without flux correction; the Burgers hat demo when no leaf has max_level (different dx / dt in the step and in the correction); the level-set demo with a variable velocity (the two cells of a face extrapolate its velocity from different sides).
* C69: a box narrower than the ghost width on some level: far ghosts get the old value of a ghost.
* C71: with one periodic direction of two, predicted values of the box depend on old values of the ghosts at the corners.
* C72: in two dimensions the prediction over one level used for the reconstruction differs from the prediction operator (sign of the cross term of the operator, C38).
* C73: the memory of portion with intervals ignores delta_l: a call with another delta_l on the same level and block returns the earlier sum.
* C74: with the default margin (max_stencil_width 1, prediction order 1) the reconstruction reads cells at distance 2 of a leaf two or more levels above the finest level, which the mesh need not store.
* C75: with the default margin (max_stencil_width 1, prediction order 1; demos/tutorial/proj_on_mesh.cpp) the transfer to a leaf two or more levels below a leaf of the source reads cells at distance 2 of the latter, which the mesh need not store. The demo lid_driven_cavity (width 2) meets the hypothesis.
* C76: make_convection_upwind for a field with several components fills the column d of the coefficients (convection_lin.hpp L51, L72), so the flux of every component in direction d is velocity_d times component d. Without families of fine cells next to a coarse leaf an interval of a level jump can have an odd number of cells, and the last one is not added to the coarse side.
* C78: the ghosts are not eliminated in the stencils of the faces of the boundary (flux_based_scheme_assembly.hpp L199-217). With two cells these stencils contain no projection or prediction ghost, with four cells they can: the row then multiplies the entry of the ghost, which the system sets to 0, and differs from the explicit scheme.
* C79: the count of a pair of components is field_size * (size of the combination), inside loops over both components (flux_based_scheme_assembly.hpp L74-98), so the number announced for a row of a leaf is field_size times the number of calls of MatSetValue: sufficient, but larger than needed by that factor. The rows of eliminated ghosts are announced with the length of their combination although only their diagonal is set.
* C80: `operator+` of two flux-based schemes of the same configuration adds the coefficients position by position and keeps the stencil of the first; the configuration contains only the size of the stencil, and the member `stencil` is set freely by the user, so two schemes with other stencils of the same size are added without any error and the sum is wrong (C80_plus_refuted). Read only, not modelled: for nonlinear schemes the same operator assigns `sum_scheme.cons_flux_function` (algebraic_operators.hpp L122, L131, L145, L154), which is a member of the flux definition and not of the scheme.
* C81: the preallocation of an OperatorSum relies on the sizes of the stencils only. For the default line stencils, which are nested for all sizes, it is sufficient; with free stencils it is not: in C81_sizes_refuted two stencils of three cells give seven coefficients in rows announced with six (contrived stencils; the announced numbers count repeated columns, which leaves room for the usual ones).
* C82: BlockAssembly<true>::matrix_rows() and matrix_cols() add the blocks with row == col only (block_assembly.hpp L527-553). For a block matrix with more rows of blocks than columns (allowed: create_applicable_vector() and create_rhs_vector() exist for it, L232-249) the matrix is created too small (matrix_assembly.hpp L169-173) and the last rows of blocks are outside of it (C82_rectangular_refuted).
* C84: GaussLegendre<degree> with degree >= 40 compiles and leaves the points and weights uninitialized (gauss_legendre.hpp L100-602 has no last else and no assertion, C84_degree_refuted).
* Read, not modelled: make_field takes `const GaussLegendre<degree>& gl` (field.hpp L932, L951) and calls `quadrature`, which is not a const member function (gauss_legendre.hpp L31), so the function cannot be instantiated; C84_make_field is about the value it would compute. With SAMURAI_CHECK_NAN it also calls `f.fill` on the function instead of the field (field.hpp L936).
* C85: create_fields_IS takes the blocks with row == 1 instead of row == 0 (block_assembly.hpp L851); for a block operator with one row of blocks the returned index sets are uninitialized (C85_indices_refuted).
* C86: MRMesh::exists (mr/mesh.hpp L357) returns inside its loop: all entries of the mask but the first are uninitialized (C86_mr_refuted), and an empty interval reaches the end of the function without a return. Both `exists` allocate size / step entries but write one per position: for the even or odd elements of an interval, whose size is odd, the last write of MROMesh::exists is outside (C86_step_refuted, C86_even_odd_refuted).
