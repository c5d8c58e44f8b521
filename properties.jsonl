{"id": "C01", "title": "Element interpolation functions", "statement": "At every local point whose three area coordinates sum to one the six Tri6 shape functions sum to one; at each of the element's own six nodes exactly one function is 1 and the others are 0; shape_function and shape_function_only return the same six values.", "quantifier": "every point (eta, xi, zeta) with eta+xi+zeta=1; all six nodes", "why_tests_cant": "Continuum of local points; a test samples a few.", "anchors": ["src/sectionproperties/analysis/fea.py:__shape_function_cached", "src/sectionproperties/analysis/fea.py:shape_function", "src/sectionproperties/analysis/fea.py:shape_function_only"]}
{"id": "C02", "title": "Quadratic fields and their gradients are reproduced exactly", "statement": "For a straight-sided element of non-zero area, interpolating the nodal values of any polynomial of degree at most two gives that polynomial's value at every point, and the derivative matrix B applied to the nodal values gives its exact x and y derivatives; an element of zero area gets B = 0 instead of an error.", "quantifier": "all non-degenerate triangles, all quadratic polynomials, all local points", "why_tests_cant": "Infinite families of triangles and fields.", "anchors": ["src/sectionproperties/analysis/fea.py:__shape_function_cached"]}
{"id": "C03", "title": "Quadrature degree", "statement": "gauss_points(n) for n = 1, 3, 4, 6 gives weights summing to one and integrates every polynomial of degree at most 1, 2, 3, 4 respectively over any triangle exactly (up to rounding); any other n raises ValueError.", "quantifier": "all polynomials up to the stated degree, all triangles, all integers n", "why_tests_cant": "Exactness is a statement on a vector space of integrands over all triangles.", "anchors": ["src/sectionproperties/analysis/fea.py:gauss_points"]}
{"id": "C04", "title": "Element geometric properties are the true integrals", "statement": "For every straight-sided element with counter-clockwise corners, geometric_properties returns the exact area, first moments and second moments of the triangle, and the material's E, G and density.", "quantifier": "all triangles with positive orientation, all materials", "why_tests_cant": "Needs equality with an integral for every triangle.", "anchors": ["src/sectionproperties/analysis/fea.py:Tri6.geometric_properties"]}
{"id": "C05", "title": "Section totals are modulus-weighted sums independent of element order", "statement": "After calculate_geometric_properties the section's area, mass, EA, GA, Q and I about the global axes are the sums over all elements of the exact element integrals weighted by density / E / G, and any reordering of the elements gives the same result; joining two meshes adds the results.", "quantifier": "all meshes (any number of elements), all permutations, all material assignments", "why_tests_cant": "Unbounded number of elements and all permutations.", "anchors": ["src/sectionproperties/analysis/section.py:Section.calculate_geometric_properties"]}
{"id": "C06", "title": "Mesh independence", "statement": "Two straight-sided meshes of the same outline (same boundary after cancelling interior edges and merging collinear boundary pieces) give identical area, first and second moments, hence identical centroid and inertia properties; the values equal the boundary (shoelace-type) formulas of the outline.", "quantifier": "all pairs of meshes with the same boundary, any refinement", "why_tests_cant": "Quantifies over every mesh the mesher could return.", "anchors": ["src/sectionproperties/analysis/section.py:Section.calculate_geometric_properties", "src/sectionproperties/analysis/fea.py:Tri6.geometric_properties", "src/sectionproperties/pre/pre.py:create_mesh"]}
{"id": "C07", "title": "Translation behaviour", "statement": "Translating the mesh leaves area, EA, centroidal second moments, principal values, principal angle and radii unchanged, moves the centroid by the translation, and changes global moments by the parallel axis terms.", "quantifier": "all meshes with non-zero EA, all translations", "why_tests_cant": "All meshes and all real offsets.", "anchors": ["src/sectionproperties/analysis/section.py:Section.calculate_geometric_properties", "src/sectionproperties/post/post.py:SectionProperties.calculate_centroidal_properties"]}
{"id": "C08", "title": "Rotation, mirror and scale behaviour", "statement": "Rotating a mesh rotates the centroid and the inertia tensor and preserves the principal second moments; mirroring negates Ixy only; scaling by k scales area by k^2 and second moments by k^4.", "quantifier": "all meshes, all angles, both mirror axes, all positive scale factors", "why_tests_cant": "All meshes and angles.", "anchors": ["src/sectionproperties/analysis/section.py:Section.calculate_geometric_properties", "src/sectionproperties/post/post.py:SectionProperties.calculate_centroidal_properties"]}
{"id": "C09", "title": "Positivity of geometric properties", "statement": "For any non-empty mesh of counter-clockwise non-degenerate elements with positive moduli, area, EA, Ixx_c, Iyy_c, i11, i22 and Ixx_c*Iyy_c - Ixy_c^2 are strictly positive.", "quantifier": "all such meshes", "why_tests_cant": "A strict inequality over all meshes.", "anchors": ["src/sectionproperties/analysis/section.py:Section.calculate_geometric_properties", "src/sectionproperties/post/post.py:SectionProperties.calculate_centroidal_properties"]}
{"id": "C10", "title": "Centroid and parallel axis", "statement": "The reported centroid is the point about which the E-weighted first moments vanish, and the centroidal second moments are the E-weighted second moments about that point.", "quantifier": "all meshes with non-zero EA", "why_tests_cant": "All meshes.", "anchors": ["src/sectionproperties/post/post.py:SectionProperties.calculate_elastic_centroid", "src/sectionproperties/post/post.py:SectionProperties.calculate_centroidal_properties"]}
{"id": "C11", "title": "Principal axes", "statement": "i11 >= i22, i11+i22 = Ixx+Iyy, i11*i22 = Ixx*Iyy-Ixy^2; every axis direction through the centroid has second moment between i22 and i11; phi lies in (-180, 180] (in fact in [-180,0] up to the exceptional value) and in axes rotated by phi the product of inertia vanishes and the second moment about the 11-axis is i11; when the 1e-12 tolerance branch sets phi=0 the remaining product of inertia is at most 1.5e-6 of i11.", "quantifier": "all inertia tensors (ixx, iyy, ixy) with positive i11", "why_tests_cant": "Continuum of tensors incl. branch boundary.", "anchors": ["src/sectionproperties/post/post.py:SectionProperties.calculate_centroidal_properties", "src/sectionproperties/analysis/section.py:Section.calculate_frame_properties"]}
{"id": "C12", "title": "Principal and global coordinates are mutually inverse", "statement": "principal_coordinate and global_coordinate are inverse isometries for every angle.", "quantifier": "all angles and points", "why_tests_cant": "Continuum.", "anchors": ["src/sectionproperties/analysis/fea.py:principal_coordinate", "src/sectionproperties/analysis/fea.py:global_coordinate"]}
{"id": "C13", "title": "Radii of gyration", "statement": "r^2 * EA = I for the four radii, and they are non-negative.", "quantifier": "all sections with positive EA and non-negative I", "why_tests_cant": "All sections.", "anchors": ["src/sectionproperties/post/post.py:SectionProperties.calculate_centroidal_properties"]}
{"id": "C14", "title": "Elastic section moduli", "statement": "zxx_plus etc. are I divided by the distance from the centroid to the extreme mesh node on that side, for every node list; no node lies further out than the extreme fibre used, and some node attains it; for the principal moduli likewise in rotated coordinates.", "quantifier": "all node lists of any length", "why_tests_cant": "Max/min over unbounded lists.", "anchors": ["src/sectionproperties/post/post.py:SectionProperties.calculate_centroidal_properties"]}
{"id": "C15", "title": "Yield moment", "statement": "my_xx (my_yy, my_11, my_22) is the largest moment for which the elastic bending stress stays within the yield strength of every element node: at any smaller or equal moment no node exceeds its yield strength and at my some node attains it.", "quantifier": "all sections, every node in every material group", "why_tests_cant": "Universally quantified over nodes with attained maximum.", "anchors": ["src/sectionproperties/analysis/section.py:Section.calculate_geometric_properties"]}
{"id": "C16", "title": "Frame analysis agrees with geometric and warping analysis", "statement": "calculate_frame_properties returns exactly the area, Ixx_c, Iyy_c, Ixy_c, j and phi that calculate_geometric_properties followed by calculate_warping_properties would store.", "quantifier": "all sections, composite or not, all solver outcomes", "why_tests_cant": "All sections and both material modes.", "anchors": ["src/sectionproperties/analysis/section.py:Section.calculate_frame_properties"]}
{"id": "C17", "title": "Mid-side node ordering", "statement": "If the mesher returns mid-side nodes opposite corners 0,1,2 (its documented order) then after Section construction the element node order matches the shape functions, i.e. node 3 is the middle of 0-1, 4 of 1-2 and 5 of 2-0, so the element geometry is the straight triangle.", "quantifier": "all meshes", "why_tests_cant": "All meshes.", "anchors": ["src/sectionproperties/analysis/section.py:Section.__init__"]}
{"id": "C18", "title": "Centroid location", "statement": "For positive moduli the elastic centroid lies inside the bounding box of the mesh nodes, in fact on the inner side of every line that has all nodes on one side.", "quantifier": "all meshes with positive orientation, all half-planes", "why_tests_cant": "All meshes and half-planes.", "anchors": ["src/sectionproperties/post/post.py:SectionProperties.calculate_elastic_centroid"]}
{"id": "C19", "title": "Warping stiffness matrix", "statement": "The assembled warping stiffness matrix is symmetric and positive semi-definite, constant nodal vectors are in its kernel, and for each mesh the torsion load vector sums to zero although the quadrature rule used has a negative weight.", "quantifier": "all straight-sided meshes with positive moduli, all nodal vectors", "why_tests_cant": "Quadratic form inequality over all vectors and meshes.", "anchors": ["src/sectionproperties/analysis/section.py:Section.assemble_torsion", "src/sectionproperties/analysis/fea.py:Tri6.torsion_properties", "src/sectionproperties/analysis/fea.py:_assemble_torsion"]}
{"id": "C20", "title": "Assembly and bordered system", "statement": "The bordered matrix returned by assemble_torsion has as entry (i,j) the E-weighted integral over the mesh of the product of the gradients of the nodal basis functions i and j, as border the integrals of the basis functions, and zero in the corner; the torsion load is the E-weighted integral of (y*dNi/dx - x*dNi/dy), whatever the mesh size and numbering.", "quantifier": "all meshes of any size", "why_tests_cant": "Unbounded mesh size.", "anchors": ["src/sectionproperties/analysis/section.py:Section.assemble_torsion"]}
{"id": "C21", "title": "Lagrange multiplier vanishes", "statement": "Every exact solution of the bordered system for the torsion or the shear load vectors about the centroid has multiplier zero, so the returned vector solves K u = f with zero E-weighted mean; a right-hand side not summing to zero forces a non-zero multiplier.", "quantifier": "all meshes, all exact solutions", "why_tests_cant": "All meshes and solutions.", "anchors": ["src/sectionproperties/analysis/solver.py:solve_direct_lagrange", "src/sectionproperties/analysis/section.py:Section.calculate_warping_properties"]}
{"id": "C22", "title": "Torsion constant bounds", "statement": "For any solution of the warping problem 0 <= j <= Ixx_c+Iyy_c, j is the minimum over all nodal warping vectors of the discrete strain energy, and adding a constant to the warping function does not change j.", "quantifier": "all straight-sided meshes with positive moduli, all warping solutions and trial functions", "why_tests_cant": "Inequality over all meshes and all vectors.", "anchors": ["src/sectionproperties/analysis/section.py:Section.calculate_warping_properties", "src/sectionproperties/analysis/section.py:Section.calculate_frame_properties"]}
{"id": "C23", "title": "Shear functions are solvable", "statement": "The shear load vectors assembled about the centroid sum to zero for every Poisson's ratio, so the shear problems are compatible.", "quantifier": "all meshes, all effective Poisson ratios", "why_tests_cant": "All meshes.", "anchors": ["src/sectionproperties/analysis/fea.py:Tri6.shear_load_vectors", "src/sectionproperties/analysis/section.py:Section.calculate_warping_properties"]}
{"id": "C24", "title": "Shear centre consistency", "statement": "For a zero effective Poisson's ratio the elasticity shear centre equals the Trefftz shear centre.", "quantifier": "all straight-sided meshes with exact warping and shear solutions", "why_tests_cant": "All meshes.", "anchors": ["src/sectionproperties/analysis/section.py:Section.calculate_warping_properties"]}
{"id": "C25", "title": "Shear areas", "statement": "With an effective Poisson's ratio of zero the shear deformation coefficients kappa_x and kappa_y are positive, kappa_xy^2 <= kappa_x*kappa_y and the shear areas a_sx and a_sy are positive; with another Poisson's ratio of a composite section they can be negative.", "quantifier": "all straight-sided meshes with exact shear solutions", "why_tests_cant": "Inequalities over all meshes.", "anchors": ["src/sectionproperties/analysis/section.py:Section.calculate_warping_properties", "src/sectionproperties/analysis/fea.py:Tri6.shear_coefficients"]}
{"id": "C26", "title": "Warping constant", "statement": "gamma, the shear centres and j do not change when a constant is added to the warping function; gamma is the second moment of the warping function about its shear-centre plane; for composite sections the value reported can be negative.", "quantifier": "all meshes, all constants", "why_tests_cant": "All meshes.", "anchors": ["src/sectionproperties/analysis/section.py:Section.calculate_warping_properties", "src/sectionproperties/analysis/fea.py:Tri6.shear_warping_integrals"]}
{"id": "C27", "title": "Monosymmetry constants", "statement": "beta_plus = -beta_minus for all four axes; the integrals are the exact ones; for a section mirror-symmetric about an axis the corresponding integral vanishes; the 11/22 integrals equal the x/y ones when phi=0.", "quantifier": "all meshes", "why_tests_cant": "All meshes.", "anchors": ["src/sectionproperties/analysis/section.py:Section.calculate_warping_properties", "src/sectionproperties/analysis/fea.py:Tri6.monosymmetry_integrals"]}
{"id": "C28", "title": "Stress superposition", "statement": "Every nodal stress component for combined actions is the sum of the components of the separate actions and scales linearly with the action.", "quantifier": "all sections, all action tuples, all nodes", "why_tests_cant": "All reals.", "anchors": ["src/sectionproperties/analysis/fea.py:Tri6.element_stress", "src/sectionproperties/analysis/section.py:Section.calculate_stress"]}
{"id": "C29", "title": "Axial and bending resultants", "statement": "The axial and bending stress field integrates (E-weighted section, centroidal axes) to exactly N, Mxx, Myy with zero cross-coupling: axial stress has no moment, bending has no axial force, Mxx gives no Myy.", "quantifier": "all meshes with positive determinant, all N, Mxx, Myy", "why_tests_cant": "All sections and forces.", "anchors": ["src/sectionproperties/analysis/fea.py:Tri6.element_stress"]}
{"id": "C30", "title": "Principal bending equals global bending", "statement": "Applying m11, m22 gives the same normal stress at every point as applying the equivalent mxx, myy rotated by phi, whenever phi diagonalises the inertia tensor.", "quantifier": "all inertia tensors, points and moments", "why_tests_cant": "Continuum.", "anchors": ["src/sectionproperties/analysis/fea.py:Tri6.element_stress"]}
{"id": "C31", "title": "Torsion stress resultants", "statement": "The torsion shear stress field has zero shear force resultant and its moment about the centroid is exactly the applied torque.", "quantifier": "all straight-sided meshes with exact warping solution, all torques", "why_tests_cant": "All meshes.", "anchors": ["src/sectionproperties/analysis/fea.py:Tri6.element_stress", "src/sectionproperties/analysis/section.py:Section.calculate_stress"]}
{"id": "C32", "title": "Shear stress resultants", "statement": "The shear stress field for vx has resultants (vx, 0) and for vy (0, vy), for every Poisson's ratio.", "quantifier": "all straight-sided meshes with exact shear solutions", "why_tests_cant": "All meshes.", "anchors": ["src/sectionproperties/analysis/fea.py:Tri6.element_stress", "src/sectionproperties/analysis/section.py:Section.calculate_stress"]}
{"id": "C33", "title": "Combined stresses", "statement": "sig_zz, sig_zxy, sig_11, sig_33 and von Mises are the documented functions of the components; sig_11 >= sig_33, both are eigenvalues of the stress tensor, von Mises is non-negative and zero iff all components vanish.", "quantifier": "all component values", "why_tests_cant": "Continuum.", "anchors": ["src/sectionproperties/post/stress_post.py:StressResult.calculate_combined_stresses"]}
{"id": "C34", "title": "Nodal averaging", "statement": "A node's reported stress in a material group is the average of the element values at that node over the elements of the group containing it; nodes not in the group report zero; results never mix material groups.", "quantifier": "all meshes and groups", "why_tests_cant": "Unbounded incidence.", "anchors": ["src/sectionproperties/analysis/section.py:Section.calculate_stress"]}
{"id": "C35", "title": "Extrapolation to nodes", "statement": "extrapolate_to_nodes applied to the values of any quadratic field at the six Gauss points returns its nodal values with a relative error below 1e-11.", "quantifier": "all quadratic fields", "why_tests_cant": "Vector space of fields.", "anchors": ["src/sectionproperties/analysis/fea.py:extrapolate_to_nodes", "src/sectionproperties/analysis/fea.py:h_inv"]}
{"id": "C36", "title": "Stress analysis has no side effects", "statement": "calculate_stress does not change any stored property, mesh or material group of the section; repeated and interleaved stress calls return the same values regardless of history.", "quantifier": "all sequences of stress calls with all action tuples", "why_tests_cant": "All histories.", "anchors": ["src/sectionproperties/analysis/section.py:Section.calculate_stress", "src/sectionproperties/post/stress_post.py:StressPost.__init__"]}
{"id": "C37", "title": "Point location in an element", "statement": "local_coord maps a global point to area coordinates that sum to one and reproduce the point; a point is within the element iff all its area coordinates are non-negative (barycentric test).", "quantifier": "all triangles and points", "why_tests_cant": "Continuum.", "anchors": ["src/sectionproperties/analysis/fea.py:Tri6.local_coord", "src/sectionproperties/analysis/fea.py:Tri6.point_within_element"]}
{"id": "C38", "title": "Stress at points", "statement": "get_stress_at_points returns one entry per query point in order: None when no element contains the point; otherwise the interpolated stress of the containing element(s).", "quantifier": "all lists of points, all meshes", "why_tests_cant": "Unbounded lists.", "anchors": ["src/sectionproperties/analysis/section.py:Section.get_stress_at_points"]}
{"id": "C39", "title": "Analysis order guards", "statement": "A warping, plastic or stress request before the analyses it depends on raises RuntimeError and leaves the stored properties unchanged; after the required analyses have been run in any order with any repetition, it does not raise for that reason.", "quantifier": "all finite histories of API calls", "why_tests_cant": "All call histories.", "anchors": ["src/sectionproperties/analysis/section.py:Section.calculate_warping_properties", "src/sectionproperties/analysis/section.py:Section.calculate_plastic_properties", "src/sectionproperties/analysis/section.py:Section.calculate_stress"]}
{"id": "C40", "title": "Getter guards", "statement": "A getter returns a value iff the analysis that stores the property has run (in any history) and the composite/geometric mode matches; otherwise it raises RuntimeError. The value is the documented one (the stored property, divided by e_ref for the modulus-weighted getters, moved by the centroid for the centres) and a function of the section alone, not of the history. (Two exceptions are proved: a frame analysis whose linear solve fails leaves the placeholder torsion constant 0 that get_j then returns, and the shape factors need a plastic analysis that comes after a geometric one.)", "quantifier": "all histories, all getters", "why_tests_cant": "All histories.", "anchors": ["src/sectionproperties/analysis/section.py:Section.get_area", "src/sectionproperties/analysis/section.py:Section.get_ic", "src/sectionproperties/analysis/section.py:Section.get_j", "src/sectionproperties/analysis/section.py:Section.get_s"]}
{"id": "C41", "title": "Composite and geometric getters are disjoint", "statement": "For each pair (get_ic/get_eic, get_z/get_ez, ...) exactly one of the pair is callable on a given section, decided by whether all materials equal the default material.", "quantifier": "all material lists", "why_tests_cant": "All material lists.", "anchors": ["src/sectionproperties/analysis/section.py:Section.is_composite"]}
{"id": "C42", "title": "Transformed properties", "statement": "A transformed property with reference modulus e_ref is the E-weighted one divided by e_ref; e_ref given as a Material is the same as giving its modulus; with e_ref = 1 the raw property.", "quantifier": "all values", "why_tests_cant": "Continuum.", "anchors": ["src/sectionproperties/analysis/section.py:Section.get_e_ref", "src/sectionproperties/analysis/section.py:Section.get_eic"]}
{"id": "C43", "title": "Material groups partition the elements", "statement": "When equal materials are represented by one object, each element belongs to exactly one material group, that of its own material (so that yield moments and stresses cover the whole section). With two equal but distinct material objects this fails: elements of the second object belong to no group.", "quantifier": "all material lists and meshes", "why_tests_cant": "All lists with equal-but-distinct objects.", "anchors": ["src/sectionproperties/analysis/section.py:Section.__init__", "src/sectionproperties/analysis/section.py:MaterialGroup"]}
{"id": "C44", "title": "Material / region correspondence", "statement": "Construction fails with ValueError unless the number of materials equals the number of mesh regions; when it succeeds each element gets the material of the geometry whose region attribute it carries.", "quantifier": "all meshes", "why_tests_cant": "All meshes.", "anchors": ["src/sectionproperties/analysis/section.py:Section.__init__", "src/sectionproperties/pre/pre.py:create_mesh"]}
{"id": "C45", "title": "Direct solver acceptance test", "statement": "solve_direct_lagrange returns the first n entries of the solution iff not (relative error > 1e-7 and multiplier > 10 eps), and raises otherwise; solve_cgs_lagrange raises if the solver reports failure or the signed multiplier error exceeds the tolerance. In any history calculate_warping_properties succeeds after the geometric analysis exactly if the solutions for torsion and both shear loads pass these tests (cgs with tolerance 1e-5), calculate_frame_properties if that for torsion does; otherwise they raise RuntimeError, and ValueError for another solver type.", "quantifier": "all solution vectors; all sections, solvers and histories", "why_tests_cant": "Continuum of outcomes.", "anchors": ["src/sectionproperties/analysis/solver.py:solve_direct_lagrange", "src/sectionproperties/analysis/solver.py:solve_cgs_lagrange"]}
{"id": "C46", "title": "Plastic force split", "statement": "For every line the forces above and below add up to the total yield force of the section; the normalised force imbalance is within [-1,1], equals -1 or +1 at the two extreme fibres (so the root is bracketed) and is monotone in the line position.", "quantifier": "all sections, all lines", "why_tests_cant": "All lines and sections.", "anchors": ["src/sectionproperties/analysis/plastic_section.py:PlasticSection.calculate_plastic_force", "src/sectionproperties/analysis/plastic_section.py:PlasticSection.evaluate_force_eq", "src/sectionproperties/analysis/plastic_section.py:PlasticSection.calculate_extreme_fibres"]}
{"id": "C47", "title": "Plastic modulus", "statement": "The stored plastic modulus about each of the four axes is the integral of fy*|distance to the stored plastic neutral axis|, and equals the maximum moment of any stress distribution within yield and with zero axial force; both up to the tolerance of the root finder (exactly, if the root finder's last evaluation is an exact root). The analysis completes exactly when the four root findings converge and otherwise raises RuntimeError.", "quantifier": "all sections, all admissible stress fields", "why_tests_cant": "Maximum over a function space.", "anchors": ["src/sectionproperties/analysis/plastic_section.py:PlasticSection.calculate_plastic_properties"]}
{"id": "C48", "title": "Shape factor", "statement": "For a homogeneous section the plastic modulus is at least the smaller of the two elastic moduli about the same axis, so the larger of the two shape factors is at least one. (Up to the root finder's tolerance and, for the 11-axis, the relative 1e-12 tolerance of the principal angle.)", "quantifier": "all sections", "why_tests_cant": "Inequality over all sections.", "anchors": ["src/sectionproperties/analysis/plastic_section.py:PlasticSection.calculate_plastic_properties"]}
{"id": "C49", "title": "Composite shape factors", "statement": "For composite sections plus and minus shape factors are equal and equal plastic moment over yield moment, and the plastic moment is at least the yield moment; for geometric-only ones they are S/Z; they are stored only when the elastic moduli (yield moments) of both axes of the pair are available and non-zero, otherwise the previous values stay.", "quantifier": "all property values", "why_tests_cant": "All histories.", "anchors": ["src/sectionproperties/analysis/plastic_section.py:PlasticSection.calculate_plastic_properties"]}
{"id": "C50", "title": "Facets form closed rings", "statement": "The facets generated for a polygon with holes form one closed ring per boundary with every point in exactly two facets, and facet indices are valid.", "quantifier": "all polygons with any number of vertices and holes", "why_tests_cant": "Unbounded sizes.", "anchors": ["src/sectionproperties/pre/geometry.py:create_facets", "src/sectionproperties/pre/geometry.py:create_points_and_facets"]}
{"id": "C51", "title": "Compound compilation", "statement": "Compiling a compound geometry keeps every sub-geometry's edges (as coordinates), removes duplicate points, keeps one control point per sub-geometry in order, and all facet indices refer to existing points. The points passed to the mesher as holes lie in none of the geometries of the compound if these hang together; a geometry inside a hole of another that it does not touch can be marked as a hole and left without elements (proved as a refutation of the wider claim).", "quantifier": "all lists of geometries; for the hole points all compounds made from lists, polygons, sums and motions, and every shapely whose hole points of a connected union lie outside the polygons united", "why_tests_cant": "Unbounded lists.", "anchors": ["src/sectionproperties/pre/geometry.py:CompoundGeometry.compile_geometry", "src/sectionproperties/pre/geometry.py:CompoundGeometry.create_mesh"]}
{"id": "C52", "title": "from_points reconstruction", "statement": "Geometry.from_points with an exterior loop and hole loops described by consecutive facets (one hole point per extra loop, loops distinct from the exterior and not starting where the previous one ended) rebuilds exactly those loops, and exporting points/facets of a geometry and rebuilding gives the same polygon; a number of control points other than one raises ValueError. Fewer hole points than hole loops is an IndexError; with no hole points at all a second loop is merged into the exterior (the general claim is refuted there). CompoundGeometry.from_points with consecutive loops makes one region per loop that is not a void (a void has a hole point and no control point inside), with the material of its position; without voids region i has control point i, with voids every region is the loop without the voids and its control point is the first one inside. Mismatched numbers of materials, regions and control points raise ValueError. Two consecutive loops that start at the same point are merged (the general claim is refuted there). A facet that starts at an index with no point raises IndexError in Geometry.from_points; CompoundGeometry.from_points makes no geometry if either end of a facet refers to no point (IndexError for consecutive facets). Without hole points Geometry.from_points ignores the second ends of the facets altogether, so that a dangling end is accepted (refuted there).", "quantifier": "all loop lists", "why_tests_cant": "Unbounded sizes.", "anchors": ["src/sectionproperties/pre/geometry.py:Geometry.from_points", "src/sectionproperties/pre/geometry.py:CompoundGeometry.from_points"]}
{"id": "C53", "title": "Rigid motions of geometry", "statement": "shift_section, rotate_section and mirror_section apply the corresponding isometry (up to rounding to the geometry's tolerance) to the exterior, the holes and the assigned control point: polygon area is preserved (exactly before rounding, within an explicit bound after it), shifting by grid offsets composes additively and is invertible, mirroring twice is the identity. Exceptions proved as refutations: mirroring about 'center' does not mirror an assigned control point, a compound mirrored about 'center' mirrors each member about its own centre, and shifts by offsets off the rounding grid do not add up.", "quantifier": "all polygons, offsets and angles", "why_tests_cant": "Continuum.", "anchors": ["src/sectionproperties/pre/geometry.py:Geometry.shift_section", "src/sectionproperties/pre/geometry.py:Geometry.rotate_section", "src/sectionproperties/pre/geometry.py:Geometry.mirror_section", "src/sectionproperties/pre/geometry.py:CompoundGeometry.shift_section", "src/sectionproperties/pre/geometry.py:CompoundGeometry.rotate_section", "src/sectionproperties/pre/geometry.py:CompoundGeometry.mirror_section"]}
{"id": "C54", "title": "Edge alignment", "statement": "align_to places the requested edge of the geometry on the other geometry's (or point's) edge (outside, or inside with inner=True) and does not move it in the other direction; an unknown side raises an error; align_center puts the centroid at the requested place up to rounding. For a point target with inner=True only 'left' does so: the other sides are refuted.", "quantifier": "all extents, all four directions", "why_tests_cant": "Continuum.", "anchors": ["src/sectionproperties/pre/geometry.py:Geometry.align_to", "src/sectionproperties/pre/geometry.py:Geometry.align_center", "src/sectionproperties/pre/geometry.py:CompoundGeometry.align_center"]}
{"id": "C55", "title": "shift_points", "statement": "shift_points moves exactly the selected vertices (negative indices count from the end) by (dx,dy) or to the non-zero absolute coordinate, leaves all others, keeps the control point and the material's fields; an index out of range raises IndexError. An absolute coordinate of 0 is ignored and the tolerance is reset to 12 (both proved as refutations of the wider claim). The material of the result is a copy, another object: in a section with both parts the elements of the shifted part belong to no material group.", "quantifier": "all polygons, all index sets", "why_tests_cant": "All polygons.", "anchors": ["src/sectionproperties/pre/geometry.py:Geometry.shift_points"]}
{"id": "C56", "title": "Disjoint check", "statement": "For two or more polygons check_geometry_disjoint is True iff the touching graph is not connected, for every graph; for one polygon or none it is True although the graph is connected.", "quantifier": "all touching graphs with any number of polygons", "why_tests_cant": "All graphs.", "anchors": ["src/sectionproperties/pre/geometry.py:check_geometry_disjoint", "src/sectionproperties/pre/geometry.py:build_geometry_network"]}
{"id": "C57", "title": "Section cutting line", "statement": "create_line_segment returns a segment on the requested line whose ends span the section's bounding box, for vertical and non-vertical directions; group_top_and_bottom_polys puts a polygon on top iff its representative point is above the line (right of a vertical one), to the bottom iff below, so that no polygon is lost unless its representative point lies on the line.", "quantifier": "all lines and bounds", "why_tests_cant": "Continuum.", "anchors": ["src/sectionproperties/pre/bisect_section.py:create_line_segment", "src/sectionproperties/pre/bisect_section.py:group_top_and_bottom_polys", "src/sectionproperties/pre/bisect_section.py:line_mx_plus_b"]}
{"id": "C58", "title": "Compound flattening", "statement": "Building a CompoundGeometry from nested compounds gives the flat list of member geometries in order; materials, control points and mesh sizes stay aligned with them as long as every member has a non-empty polygon (an empty member has a material but no control point, see C77).", "quantifier": "all nestings", "why_tests_cant": "All trees.", "anchors": ["src/sectionproperties/pre/geometry.py:CompoundGeometry.__init__", "src/sectionproperties/pre/geometry.py:CompoundGeometry.create_mesh"]}
{"id": "C59", "title": "Regular polygon sections", "statement": "circular_section_by_area(area, n) produces a regular n-gon inscribed in a circle whose area is exactly the requested one for every n >= 3; circular_section(d, n) has area n/2 (d/2)^2 sin(2 pi/n), below that of the circle, and its centroid in the centre; the same closed forms hold for elliptical, circular hollow, elliptical hollow and polygon hollow sections (the latter with rounded corners and symmetric under a turn of 2 pi/n).", "quantifier": "all n, all areas / diameters", "why_tests_cant": "All n.", "anchors": ["src/sectionproperties/pre/library/primitive_sections.py:circular_section", "src/sectionproperties/pre/library/primitive_sections.py:circular_section_by_area"]}
{"id": "C60", "title": "Library section outlines", "statement": "The generated outline of the library sections (rectangle, triangle, triangle with radius, cruciform, I, mono-symmetric I, channel, tee, angle, cee, zed, rectangular hollow, tapered flange I and channel, box girder, bulb) has the closed-form area of its nominal dimensions including fillets and rounded corners, spans the nominal bounding box and has the nominal symmetries and centroid, for every number of radius points >= 2; the Geometry has the outline's vertices rounded to 12 decimals. Findings: an angle whose toe radius is nearly but not exactly its thickness loses two corners; a cee lip shorter than the thickness but longer than the radius cuts a notch.", "quantifier": "all dimensions and radius point counts", "why_tests_cant": "All dimensions and n.", "anchors": ["src/sectionproperties/pre/library/steel_sections.py", "src/sectionproperties/pre/library/utils.py:draw_radius"]}
{"id": "C61", "title": "Fillet points", "statement": "draw_radius returns n points at distance r from the centre, equally spaced over the sweep angle, starting and ending at the requested angles; with r=0 the single centre point.", "quantifier": "all n, radii, angles", "why_tests_cant": "All n.", "anchors": ["src/sectionproperties/pre/library/utils.py:draw_radius"]}
{"id": "C62", "title": "Cross-laminated timber layers", "statement": "clt_rectangular_section stacks layers of equal thickness without gaps or overlaps, from y=0 downwards, each with its own material. Finding: with layers of different thickness the layers overlap or leave gaps.", "quantifier": "all layer lists", "why_tests_cant": "Unbounded lists.", "anchors": ["src/sectionproperties/pre/library/timber_sections.py:clt_rectangular_section"]}
{"id": "C63", "title": "Concrete reinforcement layout", "statement": "Rectangular/tee/circular concrete sections place exactly the requested number of bars, inside the concrete with the given cover, equally spaced and symmetric about the section's axis.", "quantifier": "all dimensions and bar counts", "why_tests_cant": "All counts.", "anchors": ["src/sectionproperties/pre/library/concrete_sections.py:concrete_rectangular_section", "src/sectionproperties/pre/library/concrete_sections.py:concrete_circular_section", "src/sectionproperties/pre/library/concrete_sections.py:concrete_column_section"]}
{"id": "C64", "title": "Wall bar spacing", "statement": "The wall and core builders cut their openings out of the outer rectangle and place bars along the faces (or the middle) of every wall, at equal distances of at most the requested spacing, every bar at least cover + half a diameter inside a wall and no two at one place. Exception: on the inner face of the pier of a doubly reinforced double_lift_core_b the spacing can be exceeded and bars can coincide; with nibs shorter than 2 (cover + dia/2 - spacing) it raises ValueError. Doors that do not fit raise ValueError.", "quantifier": "all dimensions and spacings", "why_tests_cant": "Continuum with ceiling functions.", "anchors": ["src/sectionproperties/pre/library/concrete_sections.py:rectangular_wall", "src/sectionproperties/pre/library/concrete_sections.py:double_lift_core_b"]}
{"id": "C65", "title": "Nastran sections: plates, checks and stress recovery points", "statement": "Every nastran_* builder raises ValueError for the dimensions its checks reject, and otherwise returns a geometry that is exactly the union of the documented plates (right position, no overlap, right area), of the given material, with four stress recovery points that lie on the boundary of the section once moved from the Nastran axes to the axes of the geometry. Where the checks are too weak for that (hexa, hat, fcross, dbox) or the points are misplaced (i with a wider top flange), the exact extra condition is stated and the failure without it is exhibited.", "quantifier": "all dimension tuples of all 24 builders, all materials", "why_tests_cant": "The dimensions range over a continuum and the checks are inequalities between them; examples cannot show that every accepted tuple gives a simple outline.", "anchors": ["src/sectionproperties/pre/library/nastran_sections.py"]}
{"id": "C66", "title": "Material moduli", "statement": "shear_modulus = E/(2(1+nu)); consequently for a homogeneous section the effective Poisson's ratio equals the material's and the effective E and G equal the material's.", "quantifier": "all materials, all meshes", "why_tests_cant": "All meshes.", "anchors": ["src/sectionproperties/pre/pre.py:Material.shear_modulus", "src/sectionproperties/analysis/section.py:Section.calculate_geometric_properties"]}
{"id": "C67", "title": "Fibre export: cells, warping values and text", "statement": "to_fibre_section makes one cell for each mesh element, in order, with the element's area and centroid and the name of its material (blanks as dashes), so total area and first moments are those of the section and the lumped second moments do not exceed them. For 3DOS each cell has the value and the slopes of the warping function (torsion about the origin) at its centroid; otherwise those are not exported. The tags of the cells are different from each other and from the tag of the section. The text is the notes, the command that lists all tags in order (wrapped after the first tag that passes max_width), an empty line and the cells. A material mapping replaces exactly the material names if no name is part of another word of the text, and is wrong in general otherwise; wrapped lines are longer than max_width. The text saved is the text returned. The analysis types are 2D, 3D and 3DOS in any mixture of cases; another object raises TypeError, another type or a geometry without mesh ValueError.", "quantifier": "all meshes, materials, tags, widths, mappings and number formats", "why_tests_cant": "Unbounded meshes, names and tags; the export is only compared with a few stored texts.", "anchors": ["src/sectionproperties/post/fibre.py:to_fibre_section"]}
{"id": "C68", "title": "Effective moduli of composites", "statement": "e_eff and g_eff are the area-weighted means of the element moduli, hence lie between the smallest and largest modulus present; nu_eff lies between the smallest and largest Poisson's ratio.", "quantifier": "all meshes and materials", "why_tests_cant": "All meshes.", "anchors": ["src/sectionproperties/analysis/section.py:Section.calculate_geometric_properties"]}
{"id": "C69", "title": "Mesh request", "statement": "create_mesh (geometry level) passes the points, facets, holes and quality unchanged and one region per control point with its mesh size in order: a single number or one-element list is applied to all regions, otherwise sizes are matched by position, too short a list raising IndexError; an invalid type raises ValueError for a Geometry and TypeError for a compound.", "quantifier": "all mesh size lists", "why_tests_cant": "All lists.", "anchors": ["src/sectionproperties/pre/geometry.py:Geometry.create_mesh", "src/sectionproperties/pre/geometry.py:CompoundGeometry.create_mesh", "src/sectionproperties/pre/pre.py:create_mesh"]}
{"id": "C70", "title": "Uniform modulus scaling", "statement": "Multiplying every elastic modulus by the same positive factor multiplies EA, EQ, EI and E*j by it and leaves centroid, phi, radii, shear centre and warping function unchanged; the warping moments (and x_st, gamma) scale in the same way when the mesh is connected.", "quantifier": "all meshes, all factors", "why_tests_cant": "Continuum.", "anchors": ["src/sectionproperties/analysis/section.py:Section.calculate_geometric_properties", "src/sectionproperties/analysis/section.py:Section.calculate_warping_properties"]}
{"id": "C71", "title": "A section keeps its mesh", "statement": "As long as the geometry object is not changed, every analysis of a Section describes the mesh the object was created with. The warping and frame analyses rebuild a Section from the geometry object: after a later create_mesh with another number of nodes the warping analysis raises, and the frame analysis returns the torsion constant of the new mesh.", "quantifier": "all histories of meshing, section creation and analysis", "why_tests_cant": "Depends on the history of calls.", "anchors": ["src/sectionproperties/analysis/section.py:Section.calculate_warping_properties", "src/sectionproperties/analysis/section.py:Section.calculate_frame_properties"]}
{"id": "C72", "title": "Shear forces act through the shear centre", "statement": "The moment about the centroid of the shear stresses caused by Vx and Vy equals that of the forces acting at the reported elasticity shear centre.", "quantifier": "all meshes, all exact solutions, all forces", "why_tests_cant": "All meshes.", "anchors": ["src/sectionproperties/analysis/section.py:Section.calculate_warping_properties", "src/sectionproperties/analysis/fea.py:Tri6.element_stress"]}
{"id": "C73", "title": "Solver independence", "statement": "The results of the warping analysis do not depend on which exact solver of the linear systems is used.", "quantifier": "all meshes, all pairs of exact solvers", "why_tests_cant": "Ranges over solvers.", "anchors": ["src/sectionproperties/analysis/section.py:Section.calculate_warping_properties", "src/sectionproperties/analysis/solver.py"]}
{"id": "C74", "title": "Nodal stresses equal beam theory", "statement": "The reported nodal axial stress equals the beam formula exactly, the nodal bending stresses equal it up to the rounding of the published extrapolation matrix, and so do the element values of the other components equal the element field.", "quantifier": "all meshes, groups, actions and nodes", "why_tests_cant": "Continuum of inputs, unbounded meshes.", "anchors": ["src/sectionproperties/analysis/section.py:Section.calculate_stress", "src/sectionproperties/analysis/fea.py:Tri6.element_stress", "src/sectionproperties/analysis/fea.py:extrapolate_to_nodes"]}
{"id": "C75", "title": "Warping problem well posed", "statement": "For a connected mesh that uses every node the bordered warping system has one solution for each load; for a mesh made of two disjoint regions it is singular.", "quantifier": "all meshes, all load vectors", "why_tests_cant": "All meshes and loads.", "anchors": ["src/sectionproperties/analysis/section.py:Section.calculate_warping_properties", "src/sectionproperties/analysis/section.py:Section.assemble_torsion"]}
{"id": "C76", "title": "Side of a line", "statement": "point_above_line answers True exactly for the points strictly to the left of the directed line (above it, for a line running left to right), and False for points on the line.", "quantifier": "all directions, points on the line and test points", "why_tests_cant": "Continuum of inputs.", "anchors": ["src/sectionproperties/analysis/fea.py:point_above_line"]}
{"id": "C77", "title": "Set operations keep materials, order and control points", "statement": "geometry - other, geometry | other, geometry & other and geometry ^ other return a Geometry (or a CompoundGeometry, one member per polygon) showing exactly the polygonal parts of the corresponding shapely result, in order, with lines and points dropped, all with the material of the left operand when that is a Geometry. Subtracting from a CompoundGeometry cuts every member on its own and keeps every member's material and the order. The only exception ever raised is ValueError, and none is raised when the shapely result has only polygonal parts. A difference keeps an assigned control point exactly if it still lies in the result. If |, & or ^ of a compound gives a single polygon, the result is a Geometry to twelve decimals; for | it keeps the compound's first control point. (False and shown so: |, & and ^ of a compound keep the members' materials; a member cut away completely disappears.)", "quantifier": "all geometries, compounds, materials, tolerances and all behaviours of shapely's set operations", "why_tests_cant": "Every polygon/multipolygon/collection shape of result and every material assignment matters; tests try a handful of shapes.", "anchors": ["src/sectionproperties/pre/geometry.py: Geometry.__or__, __xor__, __sub__, __and__, filter_non_polygons"]}
{"id": "C78", "title": "offset_perimeter offsets the chosen rings and keeps materials", "statement": "offset_perimeter(amount, where) buffers the whole polygon ('all'), only the outer ring with the holes cut out again ('exterior') or only the holes ('interior'); the result has the material of the original; any other keyword, or 'interior' without holes, is a ValueError. Eroding a compound cuts every member by the eroded outline and keeps its material, dropping members without area; amount 0 changes nothing; dilating a compound of two or more members gives one member for each in order with its material. (False and shown so: dilating a compound of one member, which returns an empty compound.) An offset that falls into several polygons gives a compound showing exactly these, in order, with the material of the geometry.", "quantifier": "all geometries and compounds, amounts, resolutions and all behaviours of shapely's buffer and set operations", "why_tests_cant": "Material bookkeeping must hold for every number of members and every way the members break up.", "anchors": ["src/sectionproperties/pre/geometry.py: Geometry.offset_perimeter, CompoundGeometry.offset_perimeter, buffer_polygon, compound_dilation"]}
{"id": "C79", "title": "split_section sorts the parts by the side of the line they are on", "statement": "split_section cuts the polygon with a segment that lies on the given line and crosses the whole bounding box, returns the parts whose representative point is above (right of) the line first and those below (left of) it second, with the material of the original; if no representative point is on the line no part is lost. Giving a second point is the same as giving the vector to it; giving neither is a ValueError. A compound is split member by member, in order.", "quantifier": "all geometries with non-degenerate extents, all points and non-zero directions, all behaviours of shapely's split", "why_tests_cant": "Tests use axis-aligned cuts of a few symmetric sections; the claim is for every line, including vertical and nearly vertical ones.", "anchors": ["src/sectionproperties/pre/geometry.py: Geometry.split_section, CompoundGeometry.split_section", "src/sectionproperties/pre/bisect_section.py"]}
{"id": "C80", "title": "The bridge girders are the documented standard girders", "statement": "super_t_girder_section and i_girder_section return, for every type and subtype they accept, one closed outline, symmetric about x = 0, with the documented depth and width, whose region is exactly the stack of flanges, splays, webs, fillets and chamfers of the standard minus the void between the webs, and whose area is the sum of those trapezia; other types raise ValueError. (The webs of the super-T do not have the requested thickness: shown false.)", "quantifier": "all girder types, all flange widths and flange and web thicknesses in the practical range, all materials", "why_tests_cant": "Tests build a few default girders and compare total areas; the claim is about every point of the plane for a continuum of dimensions.", "anchors": ["src/sectionproperties/pre/library/bridge_sections.py: super_t_girder_section, i_girder_section, get_super_t_girder_dims, get_i_girder_dims"]}
{"id": "C81", "title": "get_stress returns, under each documented key, the stress that key names", "statement": "get_stress returns one dictionary per material group, in group order, with the material's name and the documented 25 keys; the array of a single-action stress has one entry per node: the weighted mean of that stress over the elements of the group at the node, 0 elsewhere, and depends only on that action; the other arrays are the documented sums, resultants, principal and von Mises stresses of the arrays of the same dictionary.", "quantifier": "all sections, materials, load cases, groups and nodes", "why_tests_cant": "Tests read a few keys for single actions on homogeneous sections; a swapped key or a missing component for one action would not be noticed.", "anchors": ["src/sectionproperties/post/stress_post.py: StressPost.get_stress, StressResult"]}
{"id": "C82", "title": "plot_mohrs_circles draws Mohr's circles of the stress state at the point", "statement": "For a point in the mesh the three circles are those of the principal stresses (sigma_11, 0, sigma_33) of the stress state interpolated at the point from the arrays of its material group, and the three marked points are the normal and shear stresses on the x-, y- and z-face; each lies inside the largest circle and outside the two smaller ones. A point outside the mesh raises ValueError.", "quantifier": "all sections, load cases and points; all eigenvalue solvers that return unit eigenvectors in any order", "why_tests_cant": "The existing test only checks that a plot is produced. The order and signs of eigenvectors and repeated eigenvalues are up to the solver.", "anchors": ["src/sectionproperties/post/stress_post.py: StressPost.plot_mohrs_circles"]}
{"id": "C83", "title": "plot_centroids marks the known centroids and draws the principal axes through the centroid across the plot", "statement": "plot_centroids never fails: it marks with each of the labels elastic centroid, shear centre, global and principal plastic centroid exactly the point that get_c, get_sc, get_pc or get_pc_p returns, and omits the label if that getter raises. If get_phi and get_c return it draws two lines, and each is exactly the part inside the limits of the plot of the line through the elastic centroid in the direction phi (11-axis) or phi + 90 degrees (22-axis); otherwise none.", "quantifier": "all sections after any history of analyses, all limits that contain the centroid, all angles, all orders of equal keys in argsort", "why_tests_cant": "The tests only check that a figure is produced; axis-aligned directions, corners of the plot and ties in the sort need a case analysis over all angles.", "anchors": ["src/sectionproperties/analysis/section.py: Section.plot_centroids", "src/sectionproperties/post/post.py: draw_principal_axis"]}
{"id": "C84", "title": "display_results and display_transformed_results list what the getters return", "statement": "After any history of analyses, the table printed by display_results has exactly one row for every named value that a getter returns without an error, with that value, and no other row; it never fails. display_transformed_results raises RuntimeError unless the section is composite, and otherwise lists the values the getters return for the given e_ref, together with e_ref itself. display_mesh_info prints the number of nodes and of triangles of the mesh and the number of regions, which is the number of materials the section was made of, with the plural unless it is one.", "quantifier": "all sections, all histories of calls, all reference moduli that are not zero", "why_tests_cant": "Which rows appear depends on which of the analyses ran, in any order and number, and failed or not; tests only check that the call prints something.", "anchors": ["src/sectionproperties/post/post.py: print_results", "src/sectionproperties/post/post.py: print_transformed_results", "src/sectionproperties/analysis/section.py: Section.display_results", "src/sectionproperties/analysis/section.py: Section.display_transformed_results", "src/sectionproperties/analysis/section.py: display_mesh_info"]}
{"id": "C85", "title": "plot_stress and plot_stress_vector draw what get_stress returns", "statement": "For every documented stress name, plot_stress draws one set of filled contours for each material group to be plotted, on exactly the triangles of that group, with exactly the array that get_stress returns for that stress and group; all groups share 15 equally spaced levels from the least to the greatest value drawn (widened by 1e-12) or between the given limits. Without material_list every element is shown once. plot_stress_vector draws at the nodes, for each group, the zx and zy components and the magnitude that get_stress returns, all with one scale. An unknown name raises KeyError.", "quantifier": "all sections, actions, documented stress names, limits, material lists (by object or equal fields)", "why_tests_cant": "The tests only check that a figure is made; which array is shown for which of the 25 names, group and triangle, and the levels, must be right for every section and list of materials.", "anchors": ["src/sectionproperties/post/stress_post.py: StressPost.plot_stress", "src/sectionproperties/post/stress_post.py: StressPost.plot_stress_vector"]}
{"id": "C86", "title": "plot_mesh fills each triangle with the colour of its own material; plot_warping_function shows the warping function", "statement": "plot_mesh draws every triangle of the mesh between its corners and, with materials=True, fills it with the colour of the material of its own region; the legend has one entry for each different material. With a mask, the triangles drawn are those at which it is False, and they keep their colours as long as the first and the last triangle are drawn (if the first one is masked, triangles can get the colour of a material of another region); a mask of the wrong length raises ValueError. plot_warping_function draws the warping function of the section after a warping or frame analysis succeeded, and raises RuntimeError if there was none.", "quantifier": "all meshes in which a middle node belongs to at most two triangles, all lists of materials, all masks, all histories of analyses", "why_tests_cant": "The colour of a triangle comes out of a normalisation and truncation of element numbers and of a guess of the plotting library whether the values belong to nodes or triangles; that it hits the own colour for every number of elements is arithmetic, not an example.", "anchors": ["src/sectionproperties/analysis/section.py: Section.plot_mesh", "src/sectionproperties/analysis/section.py: Section.plot_warping_function"]}
{"id": "C87", "title": "plot_geometry draws the outline, the holes and the control points", "statement": "plot_geometry draws one line for each facet, which for a Geometry are exactly the edges of the rings of its polygon and for a CompoundGeometry those of all its members; a cross at every hole point and (with cp=True) a dot at every control point; each legend entry once; and for each entry of labels the numbers of the listed items at their places. Facets that refer to no point raise IndexError.", "quantifier": "all points, facets, holes, control points, labels; all geometries and compounds", "why_tests_cant": "That what the user sees is the polygon and nothing else must hold for any number of rings, holes and members.", "anchors": ["src/sectionproperties/pre/geometry.py: Geometry.plot_geometry"]}
{"id": "C88", "title": "A whole analysis returns the textbook properties of the shape", "statement": "Take a section library shape of the default material, let the mesh fill its outline, build a Section, run any history of calls that includes the geometric analysis: get_area, get_q, get_ig, get_c, get_ic return the area, first and second moments of the polygon. For rectangle, I, unsymmetric I, channel, tee, angle, cruciform, cee, zed and rectangular hollow section with sharp corners these are what the parallel axis formulas give for the plates (rectangle: bd, bd^3/12, bd^2/6, d/sqrt 12; I: (bd^3-(b-t_w)(d-2t_f)^3)/12; triangle: bh^3/36, -b^2h^2/72). A shape symmetric about a vertical or horizontal line has its centroid on it, ixy_c = 0, principal second moments max/min of ixx_c, iyy_c, and phi 0 or -90. get_z and get_rc follow from the extreme nodes. Composite sections: if the mesh fills polygons of several materials, get_area, get_mass, get_c, get_ea, get_eq, get_eig, get_eic, get_ez, get_rc, get_e_eff, get_g_eff and get_nu_eff return the sums over the polygons weighted by the materials (parallel axis theorem about the elastic centroid, divided by the reference modulus given), and get_eip and get_phi the principal values when the product of inertia is zero. A cross-laminated panel of layers of one thickness h and width b, each of any material: get_ea returns b h sum E_k, get_c the mean of the heights of the layers weighted by E_k (mid height when the E_k read the same from bottom and top), get_eic sum E_k (b h^3/12 + b h (y_k - cy)^2), h b^3/12 sum E_k and 0. Any section made of axis-parallel rectangles, each of any material: the same getters return the sums over the rectangles by the parallel axis theorem.", "quantifier": "all dimensions with at most 12 decimals that fit together; all polygons with holes; all meshes filling them; all histories; all solver results", "why_tests_cant": "The repository's tests compare the result for a few dimensions and one mesh each; that the chain library function, rounding, mesh, quadrature, summation, getter is exact must hold for every dimension, every mesh and every history.", "anchors": ["src/sectionproperties/pre/library/primitive_sections.py", "src/sectionproperties/pre/library/steel_sections.py", "src/sectionproperties/analysis/section.py: Section.calculate_geometric_properties, get_area, get_q, get_ig, get_c, get_ic, get_z, get_rc, get_ip, get_phi", "src/sectionproperties/post/post.py: SectionProperties.calculate_centroidal_properties"]}
{"id": "C89", "title": "The plastic moduli returned are the textbook ones", "statement": "Run the geometric and then the plastic analysis in any history. If a horizontal and a vertical line cut the section (of one or several materials) into rectangles of equal yield force on both sides, get_s (get_mp for composite sections) returns force times arm, up to the tolerance of the root finder times the yield force. In general: for any section made of rectangles of any materials there are a horizontal and a vertical line that halve the yield force, and the getter returns the integral of yield stress times distance from them; for two bonded layers in closed form. Rectangle: b d^2/4 and b^2 d/4, shape factors 3/2; I-section: b t_f (d-t_f) + t_w (d-2t_f)^2/4 and t_f b^2/2 + (d-2t_f) t_w^2/4; rectangular hollow section: outer minus inner rectangle; channel and tee with the plastic axis in web or flange; cruciform: t d^2/4 + (b-t) t^2/4 and t b^2/4 + (d-t) t^2/4; I with unequal flanges with the horizontal plastic axis in the bottom flange, the top flange or the web, whichever holds half of the area, and (t_fb b_b^2 + t_ft b_t^2 + d_w t_w^2)/4; angle with each plastic axis in the leg parallel to it or across the other leg. Cee with lips: the horizontal plastic axis at mid height, the vertical one in the web or in the flanges but never in the lips; zed with lips and equal flanges: both axes through the middle of the web, and any zed about the lines that halve its plates. The principal axes likewise with get_sp and get_mp_p; when get_phi is 0 these return the moduli about x and y, when it is -90 the same two in the opposite order (rectangle and I-section in closed form). A cross-laminated panel whose yield strengths read the same from bottom and top: sum of fy_k b h times the distance of the layer's middle from mid height, the middle layer contributing fy b h^2/4, and h b^2/4 sum fy_k about the vertical axis.", "quantifier": "all dimensions with at most 12 decimals that fit together; all yield strengths; all cuttings of the polygons; all histories; all root finders that keep brentq's promise", "why_tests_cant": "The repository's tests compare a few dimensions with a numerical tolerance; that the root search, the splitting of the polygons and the summation give the closed form must hold for every dimension, strength and tolerance.", "anchors": ["src/sectionproperties/analysis/plastic_section.py: PlasticSection.calculate_plastic_properties, pc_algorithm", "src/sectionproperties/analysis/section.py: Section.calculate_plastic_properties, get_s, get_mp, get_sp, get_mp_p, get_sf", "src/sectionproperties/pre/library/steel_sections.py: i_section, mono_i_section, rectangular_hollow_section, channel_section, tee_section, angle_section, cruciform_section"]}
{"id": "C90", "title": "The warping results move with the section", "statement": "Turn, mirror, enlarge or translate a section, renumber the nodes of its mesh, list the elements in another order or their corners from another one on: the torsion constant scales with the fourth power of length and is otherwise unchanged; both shear centres are mapped like vectors from the centroid; the reciprocals of the shear areas form a tensor; the shear areas about the principal axes scale with the area; the warping constant scales with the sixth power; the warping function is multiplied by the square of the scale and changes sign in a mirror image; the monosymmetry constants scale with length and change sign with their axis. A translation or another numbering changes no result at all.", "quantifier": "all meshes with positive moduli, all similarities of the plane, all renumberings, all orders, all exact solvers", "why_tests_cant": "Tests compare a few rotated sections with a numerical tolerance; that no result depends on position, orientation, numbering or element order must hold for every mesh and every angle.", "anchors": ["src/sectionproperties/analysis/section.py: Section.calculate_warping_properties, get_j, get_sc, get_gamma, get_as, get_as_p, get_beta, get_beta_p", "src/sectionproperties/analysis/fea.py: Tri6.torsion_properties, shear_load_vectors, shear_warping_integrals, shear_coefficients, monosymmetry_integrals"]}
{"id": "C91", "title": "Symmetric sections have symmetric results", "statement": "If the mesh is its own mirror image in a vertical (horizontal) line, the centroid and both shear centres lie on that line, the product of inertia, the coupled shear deformation and the monosymmetry constant across the line vanish, and the warping function is antisymmetric (zero on the line). If it is its own image under a half turn, both shear centres are the centroid, which is the centre of the turn, and the monosymmetry constants vanish. If it is its own image under a quarter turn, the second moments and shear areas are equal in both directions and there is no coupling.", "quantifier": "all meshes with the symmetry, with any numbering, all positive moduli, all exact solvers", "why_tests_cant": "That exactly zero follows from the symmetry, for every mesh and material distribution with it, is not testable on examples.", "anchors": ["src/sectionproperties/analysis/section.py: Section.calculate_warping_properties, get_sc, get_sc_t, get_as, get_beta", "src/sectionproperties/analysis/fea.py: Tri6"]}
{"id": "C92", "title": "Perimeter of a section", "statement": "calculate_perimeter is the length of the outer boundary: it depends on neither the start nor the direction of the outline nor on holes, is at least twice the distance of any two points of the outline, and is unchanged by shift_section, rotate_section and mirror_section up to the rounding of coordinates. calculate_area and calculate_centroid of a geometry are the area and centroid integrals over any triangles that fill it, and so what get_area and get_c report for a mesh of it. For a compound it is the outer boundary of the union, or exactly -1 if the union is not one polygon. get_perimeter returns it after a geometric analysis, whatever else was analysed. The perimeters of the library sections (rectangle, triangles, circle, cruciform, I, mono I, channel, tee, angle, cee, zed, rectangular and circular hollow sections, box girder) are their sums of straight sides and chord polygons, which approach the arcs from below as n_r grows.", "quantifier": "all polygons, all library parameters in the documented ranges, all n_r >= 2, all analysis histories", "why_tests_cant": "Tests compare a few sections with numbers; the closed forms and the invariance must hold for every parameter set and every placement.", "anchors": ["src/sectionproperties/pre/geometry.py: Geometry.calculate_perimeter, CompoundGeometry.calculate_perimeter, calculate_area, calculate_centroid", "src/sectionproperties/analysis/section.py: Section.calculate_geometric_properties, get_perimeter", "src/sectionproperties/pre/library/primitive_sections.py, steel_sections.py"]}
{"id": "C93", "title": "The overlap warning of the plastic analysis", "statement": "calculate_plastic_properties warns of overlapping regions exactly when the geometric analysis has been done, the geometry is a compound, and the area counted more than once exceeds 1e-9 of the sum of the areas of its regions. Regions that do not overlap never cause a warning; an overlap of more than that always does; smaller overlaps go unreported.", "quantifier": "all lists of polygons, all ways in which they overlap", "why_tests_cant": "Tests show one compound with and one without an overlap; absence of false warnings must hold for every list of disjoint regions.", "anchors": ["src/sectionproperties/pre/geometry.py: check_geometry_overlaps", "src/sectionproperties/analysis/section.py: Section.calculate_plastic_properties"]}
{"id": "C94", "title": "The stresses move with the section", "statement": "Moving, turning, mirroring or enlarging a section, renumbering its nodes or listing its elements in another order, with the stress resultants turned and scaled accordingly, gives the same normal stresses at corresponding nodes and shear stresses that are turned with the section; principal stresses, von Mises stress and the magnitude of the shear stress are the same. With the corners of each triangle listed in the same order the agreement is exact; in a mirror image it is exact up to 2e-15 of the largest stress at an integration point, because the table for the extrapolation has 15 digits. The same holds for the stresses at arbitrary points. A section that is its own mirror image has symmetric stresses under symmetric stress resultants. In a section that is its own image under a half turn, at opposite points the stresses of the axial and shear forces are the same and those of the bending and twisting moments are opposite.", "quantifier": "all meshes and their images under similarities, all numberings, all stress resultants, all groups of elements, all nodes, exact solvers", "why_tests_cant": "Tests compare a few sections in one position; the agreement must hold for every mesh, position, orientation and load.", "anchors": ["src/sectionproperties/analysis/section.py: Section.calculate_stress", "src/sectionproperties/analysis/section.py: Section.get_stress_at_points", "src/sectionproperties/analysis/fea.py: Tri6.element_stress, extrapolate_to_nodes, Tri6.local_element_stress", "src/sectionproperties/post/stress_post.py: StressResult.calculate_combined_stresses"]}
{"id": "C95", "title": "Torsion constant under refinement, added material and stiffer materials", "statement": "Cutting the triangles of a mesh into smaller triangles never increases the torsion constant that is reported. The torsion constant of a section is at least the sum of the torsion constants of the parts it is made of; adding material never decreases it. Larger moduli never decrease the (modulus-weighted) torsion constant.", "quantifier": "all conforming meshes and all refinements of them, all numberings, all ways to divide a mesh into parts, all moduli, exact solvers", "why_tests_cant": "A convergence study uses a few meshes of a few sections; that the value is approached from one side must hold for every mesh and every refinement.", "anchors": ["src/sectionproperties/analysis/section.py: Section.calculate_warping_properties", "src/sectionproperties/analysis/section.py: Section.get_j, Section.get_ej", "src/sectionproperties/analysis/fea.py: Tri6.torsion_properties"]}
{"id": "C96", "title": "Sections read from CAD files", "statement": "Reading a DXF file gives exactly the polygons found in it, in order, each as a region of the default material: a Geometry for one polygon and a CompoundGeometry for several. A missing file is a ValueError, and a file without polygons or with something that is not a polygon is a RuntimeError; nothing is skipped silently. Geometry.from_3dm accepts a file with exactly one polygon, CompoundGeometry.from_3dm one with at least one. Geometry.from_rhino_encoding gives the polygon of the string.", "quantifier": "all lists of objects found by the file reader, all geometry kernels", "why_tests_cant": "The sample files hold a few shapes; that no region is lost, added or reordered must hold for every number of objects in a file.", "anchors": ["src/sectionproperties/pre/geometry.py: Geometry.from_dxf, load_dxf", "src/sectionproperties/pre/geometry.py: Geometry.from_3dm, CompoundGeometry.from_3dm, Geometry.from_rhino_encoding", "src/sectionproperties/pre/rhino.py: load_3dm, load_brep_encoding"]}
{"id": "C97", "title": "Two-sided bounds for the torsion constant", "statement": "The torsion constant that is reported is never below the torsion constant of elasticity theory and never above 4 I11 I22 / (I11 + I22) of the reported principal second moments. Precisely: every Prandtl stress function (a function with continuous derivatives that vanishes on the outline) gives a lower bound, 4 times its volume minus the integral of its squared slopes over E, and so does every multiple of it; for the stress function of elasticity theory the bound is twice its volume. Any mesh of a b x d rectangle reports a value between 5/18 and 1/3 of b^3 d^3 / (b^2 + d^2); any mesh of an equilateral triangle of side a reports at least sqrt(3) a^4 / 80, the exact value.", "quantifier": "all meshes of a section, all stress functions, all rectangle sizes and positions, all exact solvers", "why_tests_cant": "Tests compare a few sections and mesh sizes with handbook values within a tolerance; that the error always has the same sign and stays between the bounds must hold for every mesh.", "anchors": ["src/sectionproperties/analysis/section.py: Section.calculate_warping_properties", "src/sectionproperties/analysis/section.py: Section.get_j, Section.get_ej", "src/sectionproperties/analysis/fea.py: Tri6.torsion_properties"]}
{"id": "C98", "title": "Shear areas: extremal property, mesh refinement and lower bounds", "statement": "For a section with zero effective Poisson's ratio (every section without materials) the reciprocal of each reported shear area (A_sx, A_sy, A_s11, A_s22) is the greatest value, over all displacement fields of the mesh, of twice the work of the bending stresses of a unit shear force in that direction less the energy of the shear strains. Therefore refining a mesh never increases a shear area, and for a section without materials every field of shear stresses in equilibrium with a unit shear force bounds the shear area from below: the area times the integral of the squared stresses is at least 1. Any mesh of a b x d rectangle reports shear areas between 5/6 b d and b d in all four directions.", "quantifier": "all meshes and their refinements, all shear stress fields in equilibrium, all rectangle sizes and positions, all exact solvers", "why_tests_cant": "Tests compare shear areas of a few sections with handbook values within a tolerance; monotonicity under refinement and the bounds must hold for every mesh and every admissible stress field.", "anchors": ["src/sectionproperties/analysis/section.py: Section.calculate_warping_properties", "src/sectionproperties/analysis/section.py: Section.get_as, Section.get_as_p, Section.get_eas", "src/sectionproperties/analysis/fea.py: Tri6.shear_load_vectors, Tri6.shear_coefficients"]}
{"id": "C99", "title": "Torsion constant of closed sections", "statement": "Every stress function that is zero on the outer sides of the mesh and constant around each hole bounds the reported torsion constant from below: with V the integral of the function over the section plus the constants times the areas of the holes, and S the integral of its squared gradient divided by the modulus, 4 V - S <= J and 4 V^2 <= J S. For any mesh of a rectangular hollow section with walls of constant thickness t the torsion constant is never below Bredt's thin-wall value 4 Am^2 t / s, Am and s being the area inside and the length of the middle line of the wall.", "quantifier": "all meshes of sections with any number of holes, all stress functions, all outer sizes, positions and wall thicknesses, all exact solvers", "why_tests_cant": "Tests compare the torsion constant of a few hollow sections with handbook values within a tolerance; the bound must hold for every mesh, size and thickness.", "anchors": ["src/sectionproperties/analysis/section.py: Section.calculate_warping_properties, Section.get_j", "src/sectionproperties/analysis/fea.py: Tri6.torsion_properties"]}
{"id": "C100", "title": "Convergence of the torsion constant under mesh refinement", "statement": "If the elastic torsion problem of a section has a solution (a stress function that vanishes on the outline and a warping function with the same shear stresses) whose warping function has third derivatives bounded by M, then the reported torsion constant is never below the exact one and exceeds it by at most 2 (4 + 144 sigma)^2 M^2 A h^4, where h is the largest element size, A the area and sigma the worst ratio of squared element size to element area. For an equilateral triangle of side a the reported values tend to sqrt(3) a^4 / 80 as the mesh is refined with elements that are not too thin; the uniform meshes with k + 1 segments on every side are such meshes.", "quantifier": "all meshes, all element sizes and shapes with the stated ratio, all triangle sizes, all exact solvers", "why_tests_cant": "Tests compare a few meshes with handbook values within a tolerance; convergence is a statement about all sufficiently fine meshes and a rate must hold for every mesh.", "anchors": ["src/sectionproperties/analysis/section.py: Section.calculate_warping_properties, Section.get_j", "src/sectionproperties/analysis/fea.py: Tri6.torsion_properties, shape_function"]}
{"id": "C101", "title": "The shear areas converge under mesh refinement", "statement": "For a section without materials whose exact shear stresses derive from a warping function with bounded third derivatives, each shear area returned by the warping analysis (about the centroidal and the principal axes) is never below the exact one, and its reciprocal is below the exact reciprocal by at most a constant times the fourth power of the element size, where the constant depends only on the area of the section, the bound on the third derivatives and the shape of the elements. For every mesh of a rectangle b by d the shear areas are at least 5/6 b d and exceed it by at most an explicit constant times the fourth power of the element size; they tend to 5/6 b d when the mesh is refined.", "quantifier": "every mesh of six-node triangles (any number of nodes and elements, any element sizes), every exact solver, every section with such a warping function; every rectangle, every tolerance, every sufficiently fine mesh of it", "why_tests_cant": "convergence is a statement about all sufficiently fine meshes; tests compute the shear areas on a few meshes and compare with a tolerance", "anchors": ["src/sectionproperties/analysis/section.py: Section.calculate_warping_properties, Section.get_as, Section.get_as_p", "src/sectionproperties/analysis/fea.py: Tri6.shear_load_vectors, Tri6.shear_coefficients"]}
{"id": "C102", "title": "The shear stresses converge to those of elasticity theory under mesh refinement", "statement": "For a section without materials, the integral over the section of the squared error of the shear stresses that the stress analysis gives inside the elements, for a torsion moment, equals the moment squared times the error of the reciprocal of the returned torsion constant; for a shear force along one of the centroidal or principal axes it equals the force squared times the error of the reciprocal of the returned shear area. When the exact warping function has bounded third derivatives this error is at most a constant times the fourth power of the element size. For every mesh of an equilateral triangle (torsion) and of a rectangle (shear forces) the constant is explicit, and with uniform meshes the error tends to zero.", "quantifier": "every mesh of six-node triangles (any number of nodes and elements, any element sizes), every exact solver, every torsion moment and shear force, every section with such a warping function; every equilateral triangle, every rectangle and all their uniform meshes", "why_tests_cant": "the error is an integral over the whole section and convergence is a statement about all sufficiently fine meshes; tests compare the stresses at a few points of a few meshes with a tolerance", "anchors": ["src/sectionproperties/analysis/section.py: Section.calculate_stress, Section.get_stress_at_points", "src/sectionproperties/analysis/fea.py: Tri6.element_stress, Tri6.local_element_stress"]}
{"id": "C103", "title": "The shear centre converges to that of elasticity theory under mesh refinement", "statement": "For a section without materials and a unit shear force along one of the centroidal or principal axes, let the exact shear stresses balance the bending stresses and be tangent to the boundary. The moment about the centroid of the force acting at the returned (elasticity) shear centre differs from the moment of the exact stresses by at most the square root of the error of the reciprocal of the returned shear area times the polar moment of the area. When the exact stresses are the slopes of a warping function with bounded third derivatives, the difference is at most a constant times the square of the element size. For every mesh of a rectangle, whose exact shear centre is the centroid, the constant is explicit, and with uniform meshes the returned shear centre tends to the centroid.", "quantifier": "every mesh of six-node triangles (any number of nodes and elements, any element sizes), every exact solver, every section with such shear stresses; every rectangle and all its uniform meshes", "why_tests_cant": "convergence is a statement about all sufficiently fine meshes; tests compare the shear centre of a few meshes with a tolerance", "anchors": ["src/sectionproperties/analysis/section.py: Section.calculate_warping_properties, Section.get_sc", "src/sectionproperties/analysis/fea.py: Tri6.shear_warping_integrals, Tri6.shear_load_vectors"]}
{"id": "C104", "title": "A plot is shown or saved once, and axes of the caller are left to the caller", "statement": "plot_mesh, plot_geometry, plot_centroids, plot_warping_function, plot_stress, plot_stress_vector and plot_mohrs_circles called with ax make no figure, save no file, close and show nothing. Called without ax they make one figure, draw in order on the axes selected by axis_index (the top left by default, negative indices from the end), the mesh below on the same axes, give these the title of the method and only then either save to filename and close (never shown), or show once (render; pause decides between a blocking window and draw), or do neither. An axis_index that is not there raises ValueError before anything is drawn. If drawing raises, nothing is saved, shown or closed. The interactive mode of pyplot is left off, except after a plot without pause (on) and after a rendered plot on axes of the caller (unchanged). With ax the argument filename is ignored: no file is written.", "quantifier": "all combinations of ax, pause, filename, render, axis_index and subplots; all drawings, also those that raise", "why_tests_cant": "The tests run a few plots with render=False; the order and number of calls must hold for every combination of arguments and every exception.", "anchors": ["src/sectionproperties/post/post.py: plotting_context", "src/sectionproperties/analysis/section.py: Section.plot_mesh, plot_centroids, plot_warping_function", "src/sectionproperties/post/stress_post.py: StressPost.plot_stress, plot_stress_vector, plot_mohrs_circles", "src/sectionproperties/pre/geometry.py: Geometry.plot_geometry"]}
{"id": "C105", "title": "NASTRAN sections have the elastic and plastic properties of their plates", "statement": "Take nastran_bar, chan, chan1, chan2, cross, fcross, h, hat, i, i1, l, tee, tee1, tee2, zed, box, box1, gbox, dbox or hat1 with dimensions that fit together, let the mesh fill the outline returned, build a Section and run any history that includes the geometric analysis: get_area, get_c, get_q, get_ig and get_ic return what the parallel axis formulas give for the section's web and flange plates; with a material other than the default one get_area, get_mass, get_ea, get_c, get_eq, get_eig and get_eic return those sums times the density or the elastic modulus over the reference modulus given. After the plastic analysis get_s (get_mp for other materials) returns the integral of the yield stress times the distance from the horizontal and the vertical line that halve the plates, up to the tolerance of the root finder times the yield force. nastran_hexa of the default material: get_area, get_c and get_ic return the values of a rectangle with a triangle on each side.", "quantifier": "all dimensions whose corners have at most 12 decimals; all materials; all meshes filling the outline; all histories; all root finders that keep brentq's promise; for the hollow sections every shapely whose difference is the outer outline with the inner one as hole", "why_tests_cant": "The repository's tests build each NASTRAN section for one set of dimensions; that no dimension goes to the wrong plate must hold for every set, and for every mesh and history.", "anchors": ["src/sectionproperties/pre/library/nastran_sections.py", "src/sectionproperties/analysis/section.py: Section.calculate_geometric_properties, Section.calculate_plastic_properties, get_area, get_c, get_q, get_ig, get_ic, get_s, get_mp"]}
