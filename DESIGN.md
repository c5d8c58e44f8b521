# Formal model of sectionproperties: design

This folder holds a Rocq (Coq 8.16.1) model of the `sectionproperties` Python code in `/repo` and machine-checked
proofs of the properties listed in `properties.jsonl`. The source was only read, never executed.

## Layout

* `rocq/theories/Base.v` – results with exceptions, list helpers, 6-vectors.
* `rocq/theories/M_*.v` – the model. Definitions only. Every definition cites the file and lines it models.
* `rocq/theories/S_*.v` – the specification: what integrals, polygons, plates, connectivity, layouts ... mean, written without
  looking at the model's helpers (Coquelicot `RInt`, textbook formulas, winding numbers, inductive relations).
* `rocq/theories/P_*.v` – lemmas and proofs.
* `rocq/theories/T_*.v` – the property theorems, each with an `Example` showing that its hypotheses are met by a
  concrete non-trivial case, followed by `Print Assumptions`.
* `MANIFEST.json` – property id -> status and theorem names (made by `tools/manifest.py` from the theorem names and `tools/notes.json`).
* `seeded/LOG.jsonl` – log of seeded-bug experiments against the theorems.
* `tools/assumptions.py` – writes the axiom list at the end of this file from `Print Assumptions`.

Naming: `Cnn_...` is a theorem about property Cnn; `..._refuted` proves that a stronger, plausible statement is false of the code (with a
concrete witness); `..._met` and other `Example`s show that hypotheses are satisfiable.

## Modelling decisions

1. *Numbers.* Floating point numbers are modelled as the real numbers `R` of the standard library. Rounding is not
   modelled; the few places where the code has tolerances or truncated decimal constants (1e-12 test for phi, the `h_inv`
   table, solver tolerances, `round(x, 12)`) keep those constants and the theorems carry explicit error bounds. Python `int` is `nat`/`Z`.
2. *Division.* `x / 0` is total in Coq. Theorems carry explicit non-zero hypotheses wherever the code would divide by
   zero (numpy would return inf/nan, Python would raise); they are not hidden in definitions.
3. *Exceptions* are values (`result A := Ok a | Err e`); only the class of the exception is kept, not its text.
4. *External code* – the Triangle mesher, shapely, the sparse solver, brentq, matplotlib, rich, file readers – is not modelled. Where a
   result of it matters, it is an argument of the model function (an oracle) and its documented behaviour is an explicit
   hypothesis of the theorem. No axioms are used for it. For each such hypothesis an instance is given that satisfies it
   (`ex_exact_direct`, `toy`, `cutter`, `keep_works`, ...), so the theorems are not vacuous.
5. *Vectors.* Per-element vectors of length six are a record `V6` with six real fields; global nodal vectors are functions
   `nat -> R` (numpy array of known length) with connectivity given by six node numbers.
6. *Caching and JIT decorators* (`functools.cache`, `njit`) and progress bars are ignored: the decorated functions are pure.
7. *Object state.* A `Section` is a record with optional result fields; calls are transitions (`M_State.v`), histories are lists of calls and
   reachability is an induction over them. A history contains geometric, warping, frame, plastic and stress analyses, getters and changes of the
   geometry the section was made from.
8. *Material identity.* A material object is its fields together with a reference number, because the code groups elements by equality and by identity.
9. *Text* (fibre export) is Coq's ASCII `string`; number formatting is a function argument.

## What is modelled, file by file

| file of /repo/src/sectionproperties | model | not modelled |
|---|---|---|
| analysis/fea.py | M_Fea.v, M_Stress.v: everything | `__repr__`, numba details |
| analysis/section.py | M_Init.v (construction, material groups, mesh), M_Section.v (geometric, warping, frame analyses), M_Stress.v, M_State.v + M_Props.v (API state machine, getters, guards, `get_stress_at_points`), M_Draw.v (`plot_centroids`), M_Display.v (`display_results`, `display_transformed_results`, `display_mesh_info`), M_Plots.v (`plot_mesh`, `plot_warping_function`), M_PlotContext.v (figures, files and windows) | colours and line styles |
| analysis/plastic_section.py | M_Plastic.v: force equation, root search interface, section moduli | verbose printing |
| analysis/solver.py | M_Solver.v: acceptance tests around the solvers | the solvers themselves (oracles), progress bars |
| post/post.py | M_Post.v: centroidal and principal properties, section moduli; M_Draw.v: `draw_principal_axis`; M_Display.v: `print_results`, `print_transformed_results` (rows); M_PlotContext.v: `plotting_context` | text of the tables |
| post/stress_post.py | M_Stress.v: stress components and combined stresses; M_StressPost.v: `get_stress`, the numbers drawn by `plot_mohrs_circles`; M_Plots.v: `plot_stress`, `plot_stress_vector` (what matplotlib receives) | the drawing |
| post/fibre.py | M_Fibre.v: everything | number formatting (parameter) |
| pre/pre.py | M_Init.v, M_Geometry.v: materials, mesh request | Triangle (oracle) |
| pre/geometry.py | M_Geometry.v (facets, compilation, from_points, rigid motions, alignment, shift_points, disjoint check), M_SetOps.v (`|`, `-`, `&`, `^`, `+`, offset, split), M_Plots.v (`plot_geometry`), M_Load.v (from_dxf, from_3dm, from_rhino_encoding) | shapely predicates and constructions (oracles), the parsing of DXF/3DM files, the drawing |
| pre/bisect_section.py | M_Bisect.v: everything | – |
| pre/library/primitive, steel, timber, utils | M_Library.v: all builders and `draw_radius` | – |
| pre/library/concrete_sections.py | M_Concrete.v: all builders, bar placement | – |
| pre/library/nastran_sections.py | M_Nastran.v: all 24 builders | – |
| pre/library/bridge_sections.py | M_Bridge.v: super-T and I girders | – |
| pre/rhino.py | M_Load.v | the parsing of the file or string (rhino_shapely_interop) is an argument |

## Plan per property

| id | what is modelled | how it is proved |
|---|---|---|
| C01 | `shape_function`, `shape_function_only` | ring identities for all local points |
| C02 | `__shape_function_cached` with its 3x3 Jacobian and solve | explicit inverse, field identities for arbitrary triangle and quadratic |
| C03 | `gauss_points` | iterated `RInt` over the unit simplex of a general polynomial with symbolic coefficients; nested-radical algebra for n=6 |
| C04 | `Tri6.geometric_properties` | equality with `RInt`-defined triangle integrals |
| C05 | accumulation loop of `calculate_geometric_properties` | fold_left lemmas, Permutation |
| C06 | same, mesh as list of triangles | Green edge contributions; equivalence relation on directed edge lists (cancel, permute, split) |
| C07, C08 | same | sums over elements, exact integrals, algebra |
| C09, C18 | same | positivity of integrals of squares of affine functions |
| C10–C14 | `post.py` | algebra; atan2 model with its defining property; max/min over node lists |
| C15 | yield index loops | fold of max, attained maximum |
| C16 | `calculate_frame_properties` | comparison of the two programs |
| C17 | node reorder in `Section.__init__` | case analysis |
| C19–C27, C31, C32, C72, C73, C75 | torsion/shear assembly and post-processing | discrete weak forms, exactness of the 4-point rule on degree <= 3, quadratic forms, kernel of the stiffness matrix on connected meshes |
| C28–C30, C33–C35, C74 | `element_stress`, averaging, combined stresses | linearity, weak forms tested with coordinate functions, interval bounds for `h_inv` |
| C36, C39–C42, C71 | API state machine over histories | invariants by induction over call lists |
| C43, C44 | `Section.__init__` | permutation of elements into groups, induction on the material list |
| C37, C38, C76 | `local_coord`, `point_within_element`, `get_stress_at_points`, `point_above_line` | algebra, list induction |
| C45 | solver acceptance tests | case analysis with linear-solver oracle; multiplier from the weak form; T_StateSolver.v: the same tests as the only way in which the warping and frame calls fail after the geometric analysis |
| C46–C49, C57 | `plastic_section.py`, `bisect_section.py` | sections as lists of triangles with material; splitting oracle specified as a partition into pieces on either side |
| C50–C56, C58, C69 | `geometry.py` | list induction, graph reachability, algebra; hole points of compounds: S_Holes.v, T_Holes.v, from a contract on shapely's union |
| C59–C62 | `pre/library` | shoelace formula and winding numbers over generated outlines, induction on the number of fillet points |
| C63, C64 | `concrete_sections.py` | bar positions as arithmetic sequences; set difference of bars from concrete under an oracle that cuts |
| C65 | `nastran_sections.py` | winding number of each outline = number of documented plates that contain the point; recovery points on the outline |
| C66, C68, C70 | moduli | algebra over sums |
| C67 | `fibre.py` | exact integrals of quadratics over a triangle, fold invariant for line wrapping, text replacement |
| C81, C82 | `get_stress`, `plot_mohrs_circles` | dictionary as association list; linear algebra of 3 x 3 matrices with an oracle for eigenvectors |
| C83 | `plot_centroids`, `draw_principal_axis` | markers and lines as labelled lists; four cuts of a line with a box, sorted |
| C84 | `print_results`, `print_transformed_results`, `display_mesh_info` | tables as lists of (name, value); blocks of rows per getter; compared with the getters of the state machine (C39) after any history |
| C85 | `plot_stress`, `plot_stress_vector` | what tricontourf/quiver receive as values; lookup of the stress name, compared with the dictionary of `get_stress` (C82); levels as least/greatest of the arrays |
| C86 | `plot_mesh` with and without a mask, `plot_warping_function` | colour of element i through the normalisation and truncation of matplotlib, over all triangles or those a mask leaves; pigeonhole on middle nodes gives more nodes than triangles; legend by induction over the materials; warping function through the state machine (C39) |
| C87 | `plot_geometry` | list of marks; collected by kind and compared with the edges of the rings (C50, C51) |
| C88 | library function to getter, end to end | S_Outline.v: `fills` = valid mesh with the boundary of the polygon; Green's formula on the boundary (C05) gives the polygon's moments; C39/C40 give the getters after any history; plates by the parallel axis theorem; mirrored rings for symmetric shapes; S_Composite.v: `fills_regions` = the boundary of several polygons, each with its material, and sums weighted by the materials; T_Rects3.v: any number of rectangles, each of its material, by adding their edges |
| C89 | plastic moduli in closed form, library function to getter | S_PlasticForms.v: `cut_at` = the section's outline is that of rectangles beyond and before a line with equal forces; the constant field +fy/-fy on them is admissible and attains the upper bound of C47; the outlines of the library shapes are rewritten to rectangles by splitting and cancelling edges; S_Rects.v: any rectangles of any materials, cut by a line one by one, the lines exist by the intermediate value theorem; cee and zed with lips as five plates (T_Rects2.v); cross-laminated panels as rectangles, reflecting the sum over the layers (S_Clt.v, T_Clt.v); principal axes along x and y follow by turning the line round (T_PlasticForms3.v) |
| C90 | warping results under similarities, renumbering, reordering | S_Similar.v: `similarity`, `relisted`, `mesh_image`; P_Similar.v maps quadrature points of an element to those of its image (rule is symmetric); P_Similar2.v pulls back the bilinear form and the loads, uses uniqueness of gradients, and transforms every result |
| C91 | symmetric meshes | C90 with the mesh as its own image; examples: isosceles triangle, square in two and in four triangles |
| C92 | perimeters | M_Perimeter.v: `calculate_perimeter`, `compound_perimeter`; S_Perimeter.v: `curve_length` indexed definition, `quarter` chord polygon; P_Perimeter.v adds lengths piece by piece along the outlines of P_Library |
| C93 | overlap warning | S_Perimeter.v: the arrangement of the polygons as cells with a membership vector each; inclusion of layers counted cell by cell |
| C94 | stresses under similarities, renumbering, reordering | S_StressImage.v: `moved_actions`, `stress_follows`; P_Similar4.v: extrapolation and nodal averaging commute with the six listings of a triangle up to the last digit of the table; P_Similar5.v: the stresses at corresponding points from the fields of C90 |
| C95 | torsion constants of refined meshes, of parts, of stiffer sections | S_Refine.v: `conforming`, `tiles`, `refines`, `renumber`, `stiffer`; P_Refine.v: a finite element function of the coarse mesh is one of the fine mesh with the same energy; the minimum principle C22 does the rest |
| C96 | sections read from CAD files | M_Load.v: the readers as functions of what the file library finds; T_Load.v: `loads` (the regions of the result are the polygons found, in order, with the default material), the exact error cases |
| C97 | bounds for the torsion constant | S_Prandtl.v: `smooth`, `free_sides`, `stress_function`, `elastic_stress`; P_Green.v: Green's formula on a triangle for functions with continuous partial derivatives; P_Prandtl.v: a stress function does no work on finite element functions, so the energy of any of them is bounded below; the upper bound is the energy of the best quadratic warping function; P_Prandtl2.v: rectangle and equilateral triangle |
| C98 | shear areas: extremal property, refinement, lower bounds | S_Shear.v: `bending_rate`, `shear_work`, `equilibrium`; P_Shear.v: at zero Poisson's ratio the shear functions solve a symmetric problem, so the reciprocals of the shear areas are maxima; finite element functions of a mesh are finite element functions of its refinements; P_Shear2.v: divergence theorem for a field in equilibrium against finite element functions; the parabolic stresses of a rectangle |
| C99 | torsion constant of closed sections | S_Hollow.v: `closed_ring`, `enclosed`, `hollow_stress`, `hollow_edges`; P_Hollow.v: the side terms of a stress function that is constant around a closed ring cancel or give the area of the hole; P_Hollow2.v, P_Hollow3.v: smoothed ramps across the walls, integrals of products over a hollow rectangle, the ring around the hole is closed because outer and inner sides have no common node; the corners of the ramps become sharp in the limit |
| C100 | convergence of the torsion constant | S_Converge.v: `fine_mesh_of` (element size and shape), `third_at_most`, `same_stresses`; P_Converge.v: Taylor's formula from a corner by mean values, gradients of a quadratic function that is small at the six nodes, the energy of the interpolated exact warping function by the Green identities of P_Prandtl.v, minimality of the reported torsion constant (C22); S_Grid.v, P_Grid.v: uniform meshes of any triangle with any number of segments on its sides, analysed by the model (nodes numbered by the Cantor pairing) |
| C101 | convergence of the shear areas | S_Converge.v: `near_exact`; P_Converge2.v: the work of the interpolated exact warping function of the shear force, by the same interpolation error (P_Converge.v) and the balance identity of P_Shear.v, with the extremal property of the shear areas (C98); the parabolic shear stresses of a rectangle; S_Grid2.v, P_Grid2.v: uniform meshes of any rectangle, analysed by the model |
| C102 | convergence of the shear stresses | S_Error.v: `square_error` (integral of the squared difference of two stress fields), `force_direction`; P_Error.v: the squared error expanded and integrated element by element: the mixed term is the flux identity of P_Prandtl.v (torsion) or the balance identity of P_Shear2.v (shear forces), so that it equals the error of the energies; bounds from C100 and C101; uniform meshes of P_Grid.v and P_Grid2.v |
| C103 | convergence of the shear centre | P_ShearCentre.v: the moment of the finite element shear stresses is that of the force at the reported shear centre (from P_Warp5.v); the moment of their error is bounded by the Cauchy-Schwarz inequality, proved per element with the discriminant of a non-negative quadratic, and by the squared error of C102; moment and polar moment of the rectangle by Green's theorem |
| C104 | what plots do with figures, files and windows | M_PlotContext.v: `plotting_context` as the list of pyplot calls it makes around a drawing that may raise, the nested call of `plot_mesh`; counting and order of the calls by case analysis on the arguments |
| C105 | NASTRAN sections, library function to getter | S_Plates.v: `as_plates` = after any history the getters return the textbook values of a list of plates, elastic and plastic; T_NastranPlates.v: the ring of each section has the boundary of its plates (edges split at the plates' corners, opposite edges cancelled), hence its moments (boundary sums) and, with C89, its plastic moments; materials other than the default one by the sums over rectangles of C88; `nastran_hat1` as a compound (`compound_as_plates`); `nastran_hexa` by the polygon formulas of C88 (T_NastranHexa.v); the hollow ones assume that shapely's difference is the outer ring with the inner one as hole, in any direction and from any vertex (`nastran_dbox`: a difference that cuts holes, as in C65) |
| C80 | `bridge_sections.py` | winding number of each outline = membership in the documented trapezia minus the void |
| C77–C79 | set operations, offsets, splits | list induction; shapely operations as oracles with point-set hypotheses |

## Hypotheses about external code

* *Mesher* (`mesher_mesh`): six distinct node numbers per triangle, mid-side nodes at the midpoints, positive orientation, one attribute per triangle.
  Where a theorem speaks about the true region, the mesh is related to it by the refinement relation of S_Integral (common subdivisions), not by trust in Triangle.
* *Direct solver* (`exact_direct`): solves every non-singular system exactly. *Iterative solver*: any function; only the acceptance test is used.
* *Root finder*: any function; the theorems speak about the returned root's residual.
* *numpy.linalg.eig/inv, matplotlib triangulations* (C82): any unit eigenvectors and the inverse of their matrix; some triangle that contains the point; linear interpolation.
* *shapely*: `rotate`, `scale`, `translate` are the affine maps with their documented centres; boolean operations are point-set operations up to boundaries
  (`usable`, `works`, `cuts`), `buffer` is any function with the stated containment. `cuts` is assumed for every polygon, which is stronger than what shapely does on invalid polygons (it raises).

## Findings: statements that are false of the code

Each is a `..._refuted` theorem or is stated as an exact condition in the theorem named.

* C03: the 4-point rule is not exact for degree 4.
* C25, C26: with a non-zero effective Poisson's ratio (composite sections) the 4-point rule can make shear areas and warping constant negative.
* C40: a frame analysis that is refused (unknown solver) has already overwritten earlier results: `get_j` then returns 0 instead of the value or an error. C42: `get_sc_p` is not shifted by the centroid whereas `get_pc_p` is.
* C43: equal materials that are different objects (for example after `shift_points`, which copies the material) lose elements: they are in no group and report zero stress.
* C45: the test after the iterative solver does not bound the multiplier: a large negative one is accepted.
* C51: the hole point of a compound is the representative point of the filled hole of the union: if another geometry lies in that hole without touching its edge, the point can lie in it, and that geometry gets no elements (`C51_island_refuted`).
* C52: `from_points` without hole points makes one outline of two loops and ignores the second ends of all facets, even if they refer to no point (`C52_ends_ignored`, `C52_dangling_end_refuted`). `CompoundGeometry.from_points` merges two consecutive loops that start at the same point. C53: an assigned control point is not mirrored with "center"; shifts by arbitrary offsets do not add up (rounding); a compound
  mirrored about "center" mirrors its members in place. C54: inner alignment to a point uses the extent of the wrong direction. C55: an absolute coordinate 0 is ignored, the tolerance is not kept, and the copied material makes the elements of the shifted part leave all material groups (`C55_lost_elements`). C56: a single polygon is reported as disjoint.
* C57: `create_line_segment` spans from the least to the greatest of all four bounds.
* C60: `angle_section` with a toe radius just below the thickness drops a corner; `cee`/`zed` with a lip between radius and thickness have a notch; `draw_radius` with n_r = 1 and r > 0 is not symmetric;
  `box_girder_section` with equal widths uses tan(pi/2).
* C62: `clt_rectangular_section` with layers of different thickness overlaps or leaves gaps.
* C63: side bars given by area without diameter coincide at the left face; a filled column with n_x = 1 is eccentric; no bars or fewer than two circular bars raise ValueError.
* C64: `double_lift_core_b` with two layers uses the wrong pier length: gaps of more than twice the spacing and two bars at one place.
* C65: missing checks in `nastran_hexa`, `nastran_hat`, `nastran_fcross`, `nastran_dbox`; recovery points D and E of `nastran_i` use the wrong flange width.
* C67: `material_mapping` replaces text anywhere (parts of other names, notes at the top); wrapped lines are always longer than `max_width`.
* C80: the webs of `super_t_girder_section` are never as thick as asked: the outer face is laid out over the depth d instead of d - 75, so that it is not parallel to the inner face and the web is more than 7 mm too thin at the bottom.
* C85: in a section of several materials the colour scale of `plot_stress` always includes 0, also if no point has a stress near 0: the array of a group is 0 at the nodes outside it (`C85_zero_in_levels`).
* C86: `plot_mesh` with a mask that leaves out the first or the last triangle scales the colours to the triangles that are left: a triangle can get the colour of another material (`C86_mask_colors_refuted`).
* C93: overlapping regions whose common area is at most 1e-9 of the total area cause no warning (`C93_every_overlap_refuted`).
* C96: Geometry.from_rhino_encoding drops every surface of the string but the first, silently (`C96_encoding_refuted`).
* C104: with `ax` the argument `filename` of the plotting methods is ignored (`C104_filename_refuted`); one `axis_index` for a two-dimensional array of axes selects a row and raises (`C104_row_index`); the interactive mode of pyplot is not restored (`C104_mode`).
* C77, C78: boolean operations on compounds lose member materials; vanished members stay as empty geometries; dilation of a one-member compound returns an empty compound.

## Seeded bugs

`seeded/LOG.jsonl` has one line for each experiment: a scratch copy of the model is edited, all theorem files are rebuilt, and the failing files are recorded. A survivor means
that a theorem had to be tightened, or that the edit does not change behaviour (recorded as such).

## Trusted base

* The Coq 8.16.1 kernel (checked again with `coqchk`).
* The reading of the Python code recorded in the comments of the M_*.v files, and the specification vocabulary in S_*.v.
* The axioms that `Print Assumptions` lists. All come from the standard library: the classical real numbers (`sig_forall_dec`, `sig_not_dec`), `functional_extensionality_dep`, `classic`,
  and in a few theorems `constructive_indefinite_description` / `constructive_definite_description` (choice of a solution by Coquelicot or in an existence proof). None is our own. By theorem:

<!-- assumptions -->
* **no axioms** (19): C104_bad_index, C104_filename_refuted, C104_given_axes, C104_mode, C104_own_figure, C104_own_figure_alone, C104_raises, C104_row_index, C104_selection, C44_no_mesh, C45_cgs_plain, C50_create_facets, C56_disjoint, C56_single_polygon_refuted, C67_mapping_refuted, C67_types, C69_compound_mesh, C69_geometry_mesh_error, C79_no_line
* **`ClassicalDedekindReals.sig_forall_dec`, `FunctionalExtensionality.functional_extensionality_dep`** (157): C01_kronecker, C01_partition_of_unity, C02_zero_area, C05_join, C05_order_independent, C06_boundary_formulas, C07_translation_totals, C17_node_order, C21_multiplier, C37_local_coord, C37_point_within, C41_mode, C43_partition, C44_materials, C44_success, C45_cgs_acceptance, C45_cgs_bound_refuted, C45_direct_acceptance, C50_facets_closed_rings, C50_geometry_edges, C51_assign_control_point, C51_compile, C51_control_points, C52_compound_dangling, C52_compound_dangling_index, C52_compound_errors, C52_compound_outside, C52_compound_regions, C52_compound_shared_start_refuted, C52_compound_voids, C52_control_count, C52_dangling, C52_dangling_end_refuted, C52_ends_ignored, C52_export_rebuild, C52_few_points, C52_from_points_loops, C52_no_hole_points_refuted, C52_too_few_holes, C53_box_center, C53_compound_mirror, C53_compound_mirror_center_refuted, C53_compound_shift, C53_mirror, C53_mirror_center, C53_mirror_center_control_refuted, C53_mirror_involutive, C53_shift, C53_shift_additive, C53_shift_additive_any_offset_refuted, C53_shift_inverse, C54_align_center, C54_align_to, C54_align_to_point, C54_align_to_point_inner_left, C54_align_to_point_inner_refuted, C54_compound_align_center, C54_compound_align_to, C54_unknown_side, C55_absolute_zero_refuted, C55_bad_index, C55_lost_elements, C55_shift_points, C55_tolerance_refuted, C57_line_segment, C58_add, C58_flatten, C58_mesh_aligned, C60_rectangular_section, C60_rounding, C60_triangular_section, C62_equal_layers, C62_layers, C62_unequal_layers_refuted, C65_bar, C65_box, C65_box1, C65_chan, C65_chan1, C65_chan2, C65_cross, C65_dbox, C65_dbox_check_refuted, C65_fcross, C65_fcross_check_refuted, C65_gbox, C65_h, C65_hat, C65_hat1, C65_hat_check_refuted, C65_hexa, C65_hexa_check_refuted, C65_i, C65_i1, C65_i_recovery_refuted, C65_l, C65_tee1, C65_tee2, C65_zed, C66_homogeneous_effective_moduli, C67_errors, C67_mapping, C67_tags, C67_text, C67_width_refuted, C68_effective_moduli_bounds, C69_geometry_mesh, C75_disjoint_singular, C76_above, C76_point_above_line, C77_compound_control_point, C77_compound_materials_refuted, C77_control_point, C77_difference, C77_difference_compound, C77_errors, C77_intersection, C77_succeeds, C77_symmetric_difference, C77_union, C77_vanished_member_refuted, C78_compound_dilation, C78_compound_dilation_refuted, C78_compound_erosion, C78_compound_zero, C78_offset, C78_offset_failure, C78_offset_holes, C78_offset_region, C78_offset_split, C79_compound_split, C79_split, C80_i_girder, C80_i_girder_refused, C84_mesh_info, C86_mask_colors, C86_mask_colors_refuted, C86_mask_length, C86_mask_triangles, C86_mesh_colors, C86_mesh_legend, C86_mesh_lines, C87_compound, C87_dangling, C87_geometry, C87_marks, C93_disjoint, C93_every_overlap_refuted, C93_overlap_warning, C93_overlapping, C93_overlaps, C96_3dm, C96_compound_3dm, C96_dxf, C96_dxf_errors, C96_encoding, C96_encoding_refuted
* **`ClassicalDedekindReals.sig_forall_dec`, `ClassicalDedekindReals.sig_not_dec`, `FunctionalExtensionality.functional_extensionality_dep`** (85): C03_supported, C03_weights_and_points, C11_principal_values, C12_isometry, C12_principal_global_inverse, C14_section_moduli, C14_succeeds, C27_aligned, C27_opposite, C28_no_coupling, C28_superposition, C33_combined, C34_averaging, C34_groups_separate, C35_extrapolation, C38_interpolation, C38_none_outside, C38_normal_stress, C38_one_per_point, C47_completes, C49_composite_factors, C49_default_factors, C51_hole_marks, C51_island_refuted, C53_area_exact, C53_area_rounded, C53_compound_rotate, C53_rotate, C59_circular_hollow_section, C59_elliptical_hollow_section, C59_elliptical_section, C59_polygon_hollow_few_sides, C59_polygon_hollow_merged, C60_angle_section_refuted, C60_angle_section_toe_too_large, C60_bulb_section, C60_cee_section, C60_short_lip_refuted, C60_zed_section, C61_draw_radius, C61_draw_radius_zero, C63_few_bars, C63_no_bars, C64_doors_refused, C64_double_lift_core_b_short_nibs, C65_refused, C65_tee, C65_tube, C65_tube2, C74_element_values, C74_nodal_normal, C80_super_t_girder, C80_super_t_refused, C80_super_t_web_refuted, C81_combined, C81_no_coupling, C81_values, C82_mohr, C82_region, C83_axes, C85_contours, C85_errors, C85_every_element_once, C85_vectors, C85_vectors_unknown, C85_zero_in_levels, C89_axes_exist, C92_angle_section, C92_cee_section, C92_channel_section, C92_circular_hollow_section, C92_compound, C92_cruciform_section, C92_extent, C92_i_section, C92_mono_i_section, C92_moved, C92_perimeter, C92_rectangular_hollow_section, C92_rectangular_section, C92_start_and_direction, C92_tee_section, C92_triangular_radius_section, C92_triangular_section, C92_zed_section
* **`ClassicalDedekindReals.sig_forall_dec`, `Classical_Prop.classic`, `FunctionalExtensionality.functional_extensionality_dep`** (1): C57_grouping
* **`ClassicalDedekindReals.sig_forall_dec`, `ClassicalDedekindReals.sig_not_dec`, `Classical_Prop.classic`, `FunctionalExtensionality.functional_extensionality_dep`** (247): C02_quadratic_reproduction, C03_four_point_rule_degree4_refuted, C03_quadrature_exact, C04_element_properties, C05_totals_are_integrals, C06_mesh_independence, C07_translation_centroidal, C08_mirror_x, C08_mirror_y, C08_rotation, C08_scale, C09_positivity, C100_equilateral, C100_error, C100_limit, C100_uniform, C101_error, C101_limit, C101_rectangle, C101_uniform, C102_equilateral, C102_rectangle, C102_shear, C102_shear_bound, C102_torsion, C102_torsion_bound, C102_uniform_equilateral, C102_uniform_rectangle, C103_bound, C103_gap, C103_rectangle, C103_uniform, C105_nastran_bar, C105_nastran_box, C105_nastran_box1, C105_nastran_chan, C105_nastran_chan1, C105_nastran_chan2, C105_nastran_cross, C105_nastran_dbox, C105_nastran_fcross, C105_nastran_gbox, C105_nastran_h, C105_nastran_hat, C105_nastran_hat1, C105_nastran_hexa, C105_nastran_i, C105_nastran_i1, C105_nastran_l, C105_nastran_tee, C105_nastran_tee1, C105_nastran_tee2, C105_nastran_zed, C10_centroid, C11_all_directions, C11_exact_branch, C11_principal_axes, C13_radii, C14_extreme_fibres, C15_yield_moment, C16_frame_agrees, C16_frame_fails, C18_half_planes, C19_kernel_is_constants, C19_stiffness, C20_entries, C21_vanishes, C22_torsion_constant, C23_shear_loads_balanced, C24_trefftz, C25_coupling, C25_shear_areas, C26_constants_do_not_matter, C26_gamma, C27_integrals, C27_mirror, C29_principal, C29_resultants, C30_aligned, C30_principal_bending, C31_torsion_resultants, C32_shear_resultants, C36_history, C36_no_effect, C36_stress_value, C39_after, C39_before, C39_shear_before, C40_available, C40_documented, C40_history_independent, C40_only, C40_raises, C40_shape_factors, C40_shape_factors_default, C40_shape_factors_order, C40_value, C41_exactly_one, C42_transformed, C43_equal_objects_refuted, C45_frame_run, C45_multiplier, C45_warping_run, C46_balanced_line, C46_bracket, C46_force_split, C46_monotone, C47_exact, C47_plastic_modulus, C48_shape_factor, C49_at_least_yield, C59_circular_section, C59_circular_section_by_area, C59_polygon_hollow_section, C60_angle_section, C60_box_girder_section, C60_channel_section, C60_cruciform_section, C60_i_section, C60_mono_i_section, C60_rectangular_hollow_section, C60_tapered_flange_channel, C60_tapered_flange_i_section, C60_tee_section, C60_triangular_radius_section, C63_circular, C63_column, C63_column_one_row, C63_rectangular, C63_side_bars_refuted, C63_tee, C64_cee_wall, C64_double_lift_core_a, C64_double_lift_core_b_double, C64_double_lift_core_b_double_refuted, C64_double_lift_core_b_single, C64_rectangular_wall, C64_single_lift_core, C64_stairwell, C64_tee_wall, C65_rod, C67_cells, C67_totals, C67_warping, C67_warping_exact, C68_area_weighted_means, C70_scale_moduli, C70_scale_warping, C71_remesh_frame, C71_remesh_warping, C71_unchanged_geometry, C72_shear_centre, C73_solver_independent, C83_plot, C84_results, C84_transformed, C86_no_warping, C86_warping, C88_angle_section, C88_cee_section, C88_channel_section, C88_clt, C88_composite, C88_composite_moduli, C88_composite_principal, C88_cruciform_section, C88_i_closed, C88_i_section, C88_moduli, C88_mono_i_section, C88_plates, C88_polygon, C88_rectangle, C88_rectangles, C88_rectangular_hollow_section, C88_rectangular_section, C88_symmetric_x, C88_symmetric_y, C88_tee_section, C88_triangular_section, C88_zed_section, C89_aligned, C89_angle_section, C89_cee_section, C89_channel_section, C89_clt, C89_clt_balanced, C89_cruciform_section, C89_i_section, C89_i_section_principal, C89_mono_i_section, C89_parts, C89_parts_principal, C89_plates, C89_polygon, C89_rectangle, C89_rectangle_principal, C89_rectangle_shape_factors, C89_rectangles, C89_rectangular_hollow_section, C89_tee_section, C89_two_layers, C89_zed_any, C89_zed_section, C90_mirrored, C90_moved_principal, C90_moved_principal_same, C90_moved_section, C90_moved_warping, C90_scaled, C90_translated, C90_turned, C91_antisymmetric_warping, C91_half_turn, C91_quarter_turn, C91_symmetric_about_x, C91_symmetric_about_y, C92_area_and_centroid, C92_area_and_centroid_of_section, C92_box_girder_section, C92_circular_section, C92_get_perimeter, C92_quarter, C94_axes_follow, C94_bound_exists, C94_half_turn, C94_mirror_symmetric, C94_moved_stresses, C94_moved_stresses_same, C94_stress_at_points, C94_stresses_exist, C95_added_material, C95_parts, C95_refinement, C95_stiffer, C97_elastic, C97_equilateral, C97_lower, C97_rectangle, C97_upper, C98_extremal, C98_lower, C98_rectangle, C98_refinement, C99_bredt, C99_hollow_rectangle, C99_lower
* **`ClassicalDedekindReals.sig_forall_dec`, `ClassicalDedekindReals.sig_not_dec`, `ClassicalEpsilon.constructive_indefinite_description`, `Classical_Prop.classic`, `FunctionalExtensionality.functional_extensionality_dep`** (7): C25_composite_refuted, C26_composite_refuted, C39_direct, C45_direct_analysis, C75_analysis_exists, C75_unique_solution, C90_images_exist
* **`ClassicalDedekindReals.sig_forall_dec`, `ClassicalDedekindReals.sig_not_dec`, `ClassicalEpsilon.constructive_indefinite_description`, `Classical_Prop.classic`, `Description.constructive_definite_description`, `FunctionalExtensionality.functional_extensionality_dep`, `IndefiniteDescription.constructive_indefinite_description`** (1): C40_refuted
<!-- end assumptions -->
