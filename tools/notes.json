{
 "C03": {
  "note": "Exactness in R; the 4-point rule is shown not to be exact at degree 4."
 },
 "C35": {
  "note": "Proved with bound 2e-14 relative to the largest nodal value."
 },
 "C46": {
  "note": "shapely's split is an oracle assumed to cut exactly along lines that cross the bounding box (S_Plastic.covers); met by every triangulated section (P_Plastic7.mesh_geom_ok)."
 },
 "C47": {
  "note": "brentq is an oracle with the tolerance contract S_Plastic.root_within; exact cutting as in C46."
 },
 "C48": {
  "note": "Same oracles as C47; the 11-axis carries the 1e-12 tolerance of the principal angle."
 },
 "C40": {
  "note": "C40_refuted shows the one exception to history independence: a failed frame analysis leaves torsion constant 0. Libraries (solvers, meshing, plastic search) are oracles."
 },
 "C71": {
  "note": "The unqualified claim is false of the code; proved for unchanged geometry, with the exact behaviour after re-meshing."
 },
 "C36": {
  "note": "The shapely STRtree of get_stress_at_points is an oracle (query)."
 },
 "C64": {
  "note": "All seven wall and core builders with one or two layers: the concrete is the rectangle less the openings, each bar lies on a prescribed line, bars of a line are equally spaced at no more than the spacing, all are at least cover + dia/2 inside a wall, no two coincide. The exception in the statement (double_lift_core_b with two layers) is the _refuted theorem."
 },
 "C63": {
  "note": "Proved for rectangular, tee, circular and rectangular-column sections under the guard that the bars fit: the compound is the concrete with the bars as holes, then exactly the bars asked for, at the stated places (rows, lattice, circle). What shapely's difference and buffer must do is stated (cuts, insets) and shown satisfiable. Deviations proved: side bars with an area and no diameter are put twice at the left face; a filled column with n_x = 1 has all bars at the left cover; no bars at all is a ValueError.",
  "status": "proved"
 },
 "C65": {
  "note": "Proved for all 24 builders. Rectilinear sections: the winding number of the outline equals, at every point, the number of plates that contain it, the plates do not overlap, and the areas agree; the recovery points are on the outline after one common translation. Extra conditions not checked by the program are needed for hexa, hat, fcross and dbox, and each is shown necessary (_check_refuted); the recovery points of nastran_i miss the section if the top flange is wider (_i_recovery_refuted). Tubes are the difference of two rods (see C77). hat1 is exact for dimensions with 12 decimals. The double box assumes of shapely's difference what C63 assumes (cuts).",
  "status": "proved"
 },
 "C67": {
  "note": "Number formatting is a parameter (every format). C67_totals: area and first moments equal, second moments at most those of the section. C67_warping_exact: with an exact solver on a connected section the exported function solves the weak torsion problem about the origin. The mapping theorem has the guard [applicable] (no name is part of another word); C67_mapping_refuted shows it is needed, C67_width_refuted that wrapped lines exceed max_width.",
  "status": "proved"
 },
 "C80": {
  "note": "Dimensions: webs from 8 to 300, flange from 25 to 800, width at least 226 more than the nominal one. Every horizontal line crosses the outline once upwards and once downwards as described by the trapezia (shaped). C80_super_t_web_refuted: the web is more than 7 thinner at the bottom than asked.",
  "status": "proved"
 },
 "C81": {
  "note": "For every calculate_stress result (M_Stress.calc_stress). Keys and their meaning are listed in S_StressPost (direct_keys, combined_keys).",
  "status": "proved"
 },
 "C82": {
  "note": "np.linalg.eig and inv, trifinder and LinearTriInterpolator are oracles with their documented behaviour (eigen_ok, exact_find, linear_interp; instances are given). The orthogonality of the eigenvectors is not assumed but proved or shown not to matter (repeated eigenvalues).",
  "status": "proved"
 },
 "C83": {
  "note": "The limits are those matplotlib reports when the axes are drawn; numpy's argsort is any sort by the first column (an instance is given).",
  "status": "proved"
 },
 "C84": {
  "note": "A table is the list of its rows; the text of a number (format fmt) and the look of the table are not modelled.",
  "status": "proved"
 },
 "C85": {
  "status": "proved",
  "note": "A plot is the list of what tricontourf and quiver receive (triangles, values, levels); the look (axes, colour bar text, matplotlib's own interpolation) is not modelled. The automatic scale of quiver is a function argument. C85_zero_in_levels: in a composite section the levels always include 0."
 },
 "C86": {
  "status": "proved",
  "note": "matplotlib's Normalize, ListedColormap, the node/triangle rule of tripcolor and its treatment of masked triangles are modelled; the drawing itself is not."
 },
 "C87": {
  "status": "proved",
  "note": "A plot is the list of the lines, markers and annotations that matplotlib receives."
 },
 "C88": {
  "status": "proved",
  "note": "End-to-end: library function, rounding, mesh that fills the polygon (same boundary), section built, arbitrary history, getters. Dimensions on the 12-decimal grid so that rounding changes nothing; fillet and toe radius 0 for the plate formulas."
 },
 "C89": {
  "status": "proved",
  "note": "Admissible stress field on the rectangles against the upper bound of C47: the plastic moment is force times arm; then C40 for the getters. The polygons handed to the plastic analysis are assumed to fill the outline moved to its centroid; dimensions on the 12-decimal grid, sharp corners."
 },
 "C90": {
  "status": "proved",
  "note": "Finite element fields of an element and of its relisted image under a similarity correspond quadrature point by quadrature point; energy and load forms are pulled back and the gradients of the solutions are unique. Constants that depend on the values of the warping function need a connected mesh. Principal-axis results need the axes to be found (ixx not within the code's tolerance of i11) unless the map keeps the axes."
 },
 "C91": {
  "status": "proved",
  "note": "C90 for a mesh that is its own image. Meshes made by the mesh generator need not be symmetric; the theorem is about meshes that are."
 },
 "C92": {
  "status": "proved",
  "note": "Up to the rounding of vertices to 12 decimals, bounded explicitly. Hollow sections assume that shapely's difference has the outer ring as its exterior. Cee and zed sections for lips longer than radius and thickness; the other shapes are covered by C92_perimeter only."
 },
 "C93": {
  "status": "proved",
  "note": "shapely's unary_union(...).area enters as the area of the union of cells. C93_every_overlap_refuted: overlaps below 1e-9 of the total area are not reported."
 },
 "C94": {
  "status": "proved",
  "note": "Exact (C94_moved_stresses_same, C94_stress_at_points) for images whose elements list their corners in the same order; within 2e-15 of the largest stress for all others (C94_moved_stresses), a bound that always exists (C94_bound_exists). Stresses of m11 and m22 need the principal axes of the image to be the images of the axes, which C94_axes_follow gives whenever the analysis finds the axes of both sections or the map keeps the coordinate directions."
 },
 "C95": {
  "status": "proved",
  "note": "Refinement: every element is replaced by triangles that tile it (same boundary, corners inside, same material); the coarse mesh is conforming. Parts may be numbered in any way. An example gives a triangle, the triangle cut in two, and its halves."
 },
 "C96": {
  "status": "proved",
  "note": "What cad_to_shapely and rhino_shapely_interop find in the file is an argument of the model. Geometry.from_rhino_encoding leaves out all surfaces but the first without a message (C96_encoding_refuted)."
 },
 "C97": {
  "status": "proved",
  "note": "Solid sections (the stress function vanishes on the whole outline); the sides that belong to one element only are the outline. The upper bound is for every section. Examples give a square of two elements and a triangle of one."
 },
 "C98": {
  "status": "proved",
  "note": "Zero effective Poisson's ratio, which section.py uses for every section without materials; with another ratio the shear areas can even be negative (C25_composite_refuted). The stress fields have continuous derivatives in the whole plane."
 },
 "C99": {
  "status": "proved",
  "note": "The stress functions have continuous derivatives in the whole plane. The hollow rectangle has sharp corners inside and outside; library sections with corner radii are approached by C99_lower only."
 },
 "C100": {
  "status": "proved",
  "note": "The warping and stress functions have continuous derivatives in the whole plane; the bounds on the third derivatives are needed on the elements only. Sections with re-entrant corners, whose warping function has unbounded derivatives, are outside C100_error; for those C97 and C99 give the lower bound and C95 monotonicity."
 },
 "C101": {
  "status": "proved",
  "note": "Error bound of fourth order for the reciprocal shear areas of every section without materials with a smooth warping function; the rectangle with explicit constants (5/6 b d) and the limit. The warping function has continuous derivatives in the whole plane; the effective Poisson's ratio of a section without materials is zero in the code, so the exact shear stresses are those of the theory with zero Poisson's ratio."
 },
 "C102": {
  "status": "proved",
  "note": "Identities between the squared error of the stress fields inside the elements (before the extrapolation to the nodes) and the error of J or of the shear area, bounds of fourth order, explicit constants for the equilateral triangle and the rectangle, limits for uniform meshes. The exact shear stresses are those of the theory with zero Poisson's ratio, which the code uses for sections without materials. C38 links the field to the values at points."
 },
 "C103": {
  "status": "proved",
  "note": "Bound of the error of the elasticity shear centre (x_se, y_se) by the error of the shear area, bound of second order in the element size, explicit constant for the rectangle and the limit for its uniform meshes. The exact shear stresses are those of the theory with zero Poisson's ratio, which the code uses for sections without materials."
 },
 "C105": {
  "status": "proved",
  "note": "Every ring is rewritten to the boundary of its plates by splitting and cancelling edges; Green on the plates gives the moments (C88), C89 the plastic moments. hat1 is a compound of two geometries. The hexagon is the polygon of C88 with its moments worked out; its plastic moduli and the round tubes are not in these theorems."
 }
}