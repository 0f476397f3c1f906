NOTES.update({
"C01": "Any name <prefix without underscore>_<digits><rest>; saturation at INT_MAX; 'X_' reads an uninitialised int (Undef), 'A_b_1' gives 0.",
"C02": "The preconditions of the constructor (checkPECsIds...), for every model; solving itself is a separate step of the model, so 'before solving' is visible in the trace.",
"C03": "Every mesh and every materials list; the second theorem is idempotence.",
"C04": "Doubles as reals. Tags given as JSON floats or booleans (which nlohmann converts) are excluded from the rejection theorem.",
"C05": "same_text: texts that differ by permuting the members of any objects in the file.",
"C06": "Everything except the documented spelling exportParaViewSolution, which the code ignores (refuted with a witness): it reads exportParaviewSolution.",
"C07": "Proved for relative paths; for absolute input paths the mesh is looked up below the working directory (refuted for every absolute path and cwd other than /).",
"C08": "Everything proved except that the file lies inside the folder: true for folders ending in '/' (or empty), refuted for a folder given without it, because the code concatenates strings.",
"C09": "All histories of calls; the rejected calls are characterised too.",
"C10": "For graphs built from closed paths; components_of is defined from edges only (SpecGraph.v).",
"C11": "Refuted for arbitrary graphs (split follows edges forwards only and drops isolated vertices); proved when every edge can be walked back and no vertex is isolated, and a weaker statement (disjoint, never joining two components, no edge invented) for every graph.",
"C12": "Exact multiset of edges and vertices; second theorem: consistently oriented cells.",
"C13": "Soundness, completeness up to rotation and absence of repetitions, for every graph of the public interface.",
"C14": "The condition 'no two open segments start at the same vertex' is needed because the code stores successors in a map keyed by the first vertex.",
"C15": "Every closed model whose buildDomains returns; C15_models_with_domains says when it does.",
"C16": "Iff, for every model with domains.",
"C17": "Acceptance iff, edges iff, acyclicity, and the number of edges.",
"C18": "Refuted: with conductor 0 in a domain numbered after another one its ground is not 0 and the tree is rooted elsewhere (depends on the numbering of mesh elements). Proved: what the ground is in every case, and the full property for outside-in numberings.",
"C19": "Mesh state is explicit; includes when the call has no defined result (a boundary edge without boundary element indexes with -1).",
"C20": "Refuted: with two or more domains the result is always an exception (C20_no_result_with_several_domains, for all inputs). Proved: exact characterisation of the results, and the single domain case.",
"C21": "Iff for every key of the produced maps.",
"C22": "For T = R and for any arithmetic.",
"C23": "Entries over R; exact symmetry for any arithmetic with commutative addition (floats included).",
"C24": "All matrices with zero row sums; the Driver level theorem is about the replies of getCMatrix.",
"C25": "Also uniqueness of the matrix, and existence of neutral potentials so that the quantifier is not empty.",
"C26": "IEEE binary64 (PrimFloat), bit for bit, NaN included.",
"C27": "Over R with exact LU.",
"C28": "Over R with exact LU.",
"C29": "Existence and uniqueness over R.",
"C30": "Over R. Partial: the charges of the other conductors vanish when the raw charges are symmetric (an exact flux gives that, C64_reciprocity); C30_charges_of_the_conductors gives them in general (half of the asymmetry, weighted with the stored potentials). C30_..._refuted: fourteen triangles around two bars where the other conductor keeps a charge and the monopolar coefficient is not the charge of the conductor.",
"C31": "All histories of calls and all arithmetics.",
"C32": "All models and options.",
"C33": "All attribute lists.",
"C34": "Refuted for histories that change the set of tags (the essential boundaries are those of construction) and for histories whose first Solve is without prescribed boundaries while the last has them, or the reverse (MFEM eliminates the essential degrees of freedom in the matrix only at the first Solve). Proved for all other histories, with changes of surface charges, solves without prescribed boundaries and restored solutions in between.",
"C35": "All inputs; overlap order is by tag as std::map iterates.",
"C36": "Refuted as stated: getTotalCharge integrates with the opposite normal convention, so it is minus the sum (proved for all fields).",
"C37": "Proved when the discrete fluxes balance (Gauss's law); refuted otherwise.",
"C38": "All fields and orders.",
"C39": "Over R with exact log, cos, sin.",
"C40": "Any finite set of charges, any order.",
"C41": "Absorption of the monopole proved everywhere except r in {0,1}; the coefficient is positive inside the unit circle and negative outside (refuted), so positivity depends on the unit of length.",
"C42": "For finite doubles and matrices with at least one column (n x 0 matrices and non finite numbers do not survive; shown by Examples).",
"C43": "Survives for consecutive keys 0..n-1 (what a Driver produces); in general reading renumbers, proved exactly.",
"C44": "R and IEEE doubles; NaN makes it irreflexive.",
"C45": "Ragged input is accepted when the first row is empty (refuted); all other inputs proved.",
"C46": "All boxes.",
"C47": "All boxes and potentials, over R.",
"C48": "Capacitance proved. Inductance refuted: getInductanceOnBox reads the electric conductor potentials; proved exactly when both agree (iff).",
"C49": "Over R, and the unit diagonal in IEEE arithmetic.",
"C50": "Over R.",
"C51": "Smallest box, over R.",
"C52": "Over R.",
"C53": "Names without underscore can collide (third theorem).",
"C54": "All histories.",
"C55": "Over R; quadrature weights positive. C55_averages_on_triangles gives the averages by geometry for elements of order 1 on triangles, C55_averages_at_any_order for any order, as integrals by the quadrature rules of the reference element.",
"C56": "Over R.",
"C57": "PCG idealised as the exact solution of the linear system assembled by the code; quadrature tables of the spaces are inputs (Fem.v, SpecFem.v).",
"C58": "Same idealisation.",
"C59": "Shift invariance, and the entries of the generalized matrix adding up to zero, for every closed cross section on triangles. Partial: single rows need Gauss's law for the recovered flux; C59_rows_add_up_to_zero_refuted is a quadrilateral of two triangles on which it fails; ..._at_the_default_order_refuted is another one on which it fails with the elements of order 3 that the Driver uses by default.",
"C60": "Same idealisation.",
"C61": "Partial: positivity is proved where the flux of D satisfies Gauss's law. On first order triangles it need not: the refuted theorems show a quadrilateral whose capacitance comes out negative; ..._at_the_default_order_refuted show the same for another one at the default order 3.",
"C62": "Closed problems proved (on any discretization that is rescaled, and with elements of any order on triangles, where the Driver of the drawing in the other unit is shown to be built). Open ones refuted: firstOrderABC = -1/(r ln r) does not scale like 1/length; proved for any coefficient that does.",
"C63": "Partial: needs Gauss's law of the recovered flux; refuted without it on two triangles, at first order and at the default order 3.",
"C64": "Partial: needs reciprocity (Gauss's law) of the recovered flux; refuted without it on a hexagon of four triangles.",
"C65": "Relative paths proved. Refuted for absolute paths and for the file name announced in README.md.",
"C66": "Exports made while building the Driver go to exportFolder (proved); those made by run go to the directory of the input file (refuted).",
"C67": "Proved over R for every well posed pair of models and any histories of calls; mesh and order fixed. In-cell: the second Driver also succeeds (proved, not assumed).",
"C68": "Proved bit for bit on a new Driver in any arithmetic, after any history over R.",
"C69": "Elements of order 1 on straight triangles; real arithmetic and exact linear solver. C69_open_potential_of_least_energy covers open boundaries, with the energy of the boundary term.",
"C70": "The theorems ..._at_any_order are for finite elements of any order whose tables of basis functions correspond (redrawn_spaces; shown to hold of elements of any order on every moved triangle mesh: C70_elements_are_redrawn, C70_PUL_parameters_of_elements); the others, with renumbered vertices and in-cell parameters, are for order 1. In-cell parameters: for drawings turned about the origin (the box stays along the axes). Proved for closed problems and for open ones whose absorbing coefficient goes with the drawing (turning about the origin). Refuted for moving an open problem: -1/(r ln r) takes r from the origin of the drawing. Elements of order 1 on straight triangles, a rule exact for quadratic functions; real arithmetic, exact linear solver.",
"C71": "Elements of order 1 on straight triangles, a rule exact for quadratic functions; real arithmetic, exact linear solver. By C59/C61 these fluxes need not satisfy Gauss's law.",
"C72": "Elements of order 1 and (…_any_order) of every order whose reference element contains the linear functions, orders 1 to 3 of RefElements.v included, on straight triangles, with an exact rule; real arithmetic, exact linear solver.",
"C73": "Proved for meshes without obtuse angles (_partial). Refuted in general: with one obtuse triangle a vertex gets 2 V between conductors at 0 V and 1 V. Elements of order 1 on straight triangles; real arithmetic, exact linear solver.",
"C74": "Closed problems; for elements of order 1 and of any order (C74_..._of_elements) on straight triangles, and for any elements given by the tables of their basis functions (..._at_any_order); real arithmetic, exact linear solver.",
"C75": "Closed problems; for elements of order 1 on refined meshes of straight triangles, and for any pair of spaces of which one contains the other (C75_richer_spaces...: finer meshes or higher orders), given by the tables of their basis functions; C75_higher_orders_do_not_raise_the_energy: for the orders 1, 2, 3 on every triangle mesh; real arithmetic, exact linear solver.",
"C76": "Proved for the construction and every call but getPULMTLByDomains, which is the counterexample (refuted): the Drivers of the domains write over the exports of the whole problem, under the same names. File formats are not modelled: an export is a name and the coefficient vectors of its named fields.",
"C77": "Real arithmetic. mfem::PCG, CGSolver::Mult and GSSmoother are modelled from MFEM 4 (they are not in /repo) on dense matrices. The rate is the linear one (1-1/k), not the square-root rate of the Chebyshev bound.",
"C78": "Real arithmetic; PCG as in C77. The constants are the best ones of the mesh (condition numbers, flux and charge bounds), not computed from mesh sizes.",
"C79": "Real arithmetic; PCG as in C77. The constants are the best ones of the mesh, not computed from mesh sizes. For open problems the tolerance must be small against the total of the generalized matrix.",
"C80": "Real arithmetic. NDEBUG and debug builds. Division by a zero total charge (center of charge) is a real division here (0 in the model, NaN/inf in the code).",
"C81": "Addresses, ownership and initialisation are modelled, not values or sizes. What MFEM's classes own and touch is by contract (a form owns its integrators, integrators do not own coefficients, only Assemble evaluates them, a space is not looked at by the destructor of a grid function). MFEM_VERIFY is taken as an exception (MFEM built with MFEM_USE_EXCEPTIONS or a throwing error action). The Driver is its sequence of operations on the solvers; moves of unique_ptr have no operation.",
"C82": "The construction is characterised exactly (if and only if). Undefined behaviour is what the model marks Undef: indices, indeterminate reads, float to int conversions and singular systems; ownership is C81. MFEM by contract: good_mesh (tags positive, boundary elements are segments, there are regions) and good_library (sizes of the vectors, attributes.Max), proved for the first order spaces of Triangles.v.",
"C83": "Proved in any arithmetic and for every model, including those that are rejected; getPULMTLByDomains included.",
"C84": "Proved for Coq's primitive floats (IEEE 754 binary64) with Flocq. The order of the operations is that of the code; fused multiply-add, which a compiler may use on targets that have it, is not modelled. Of the inversion that gives L, the case of two conductors is bounded; larger ones and the MFEM part are not.",
"C85": "The reference element (shape functions, degrees of freedom per vertex, side and interior, quadrature rules) is a parameter with conditions on the reference triangle only; they are proved for the orders 1, 2, 3 with any positive quadrature rules of sufficient degree, Boole's rule being a concrete one. MFEM's own tables are third-party code: its bases span the same spaces (H1, Nedelec and Raviart-Thomas of the same order on triangles), the rules it picks are not proved to satisfy the conditions. The linear systems are solved exactly in this model.",
"C86": "A reference returned by get is modelled as a position in the vector of that kind. With repeated names or numbers the map and get differ (last and first; example twins).",
"C87": "Over real numbers with exact solves. C87_orders for the orders 1 to 3, C87_refinement for first order elements on meshes cut into smaller triangles; C87_best_approximation and C87_errors_never_grow for any pair of discretizations of which one is richer (SpecRedraw's richer: every potential of the one is a potential of the other, with the same values on the conductors and the same energy).",
"C88": "C88_how_the_program_ends and C88_ends_well_exactly_when hold for any arithmetic and any finite element library; C88_ends_well_when_charges_obey_gauss and C88_parallel_plates_from_the_command_line over real numbers with exact solves, C88_ends_well_with_the_iterative_solver with the PCG of Iterative.v (closed problems). C88_example starts from the text of an input file without options and the mesh file it names, and ends with the entries of the file with the results.",
})
