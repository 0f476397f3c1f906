#!/usr/bin/env python3
"""Writes ../properties.jsonl (one JSON object per line)."""
import json, os
P = []
def p(title, statement, quantifier, why, anchors):
    P.append(dict(id="C%02d" % (len(P)+1), title=title, statement=statement,
                  quantifier=quantifier, why_tests_cant=why, anchors=anchors))

p("Conductor number is read from the material name",
  "Materials::getMaterialIdFromName applied to any name of the form <prefix>_<decimal N>[<non-digit rest>], where <prefix> has no underscore and N fits in an int, returns N; the id of a name with a non-numeric first suffix is 0 and a name that ends at its first underscore has no defined id.",
  "every prefix string, every N in [0, 2^31-1], every trailing text",
  "names are unbounded strings and the interesting cases (no underscore, several underscores, empty suffix, leading zeros, overflow) are not in the test data",
  ["src/Materials.cpp:Materials::getMaterialIdFromName"])
p("A Driver is accepted exactly for conductors 0..n-1",
  "Driver construction gets past its preconditions iff the conductor ids of the model are exactly 0,1,..,n-1 (n>=1) without repetition; otherwise it throws before solving. Once accepted, every id used as an index into the per-conductor results is in range.",
  "every list of conductor materials",
  "the set of id multisets is infinite; tests only use well formed models",
  ["src/Driver.cpp:Driver::Driver", "src/Driver.cpp:Driver::solveForAllConductors"])
p("A Model stores exactly the materials present in its mesh",
  "Constructing a Model keeps a PEC, open boundary or dielectric iff its tag is the attribute of some boundary or domain element of the mesh, keeps them in the original order with all their data unchanged, and doing it again changes nothing.",
  "every mesh and every material list with distinct names (which is what the parser produces)",
  "all meshes and all tag assignments",
  ["src/Model.cpp:filterOutMaterialsNotPresentInMesh", "src/Materials.cpp:Materials::removeMaterialsNotInList"])
p("Material parsing is total on valid input and classifies by type",
  "readMaterials produces exactly one material per JSON entry, in the list of its declared type, with its tag, its eps_r (1 for Vacuum) and its area converted from mm^2 to m^2 (0 when absent); any entry with unknown type, missing type, missing tag or (for Dielectric) missing eps_r makes it throw.",
  "every JSON materials object",
  "unbounded number of entries and of malformed variants",
  ["src/Parser.cpp:readMaterials"])
p("The order of the entries in the input file is irrelevant",
  "Two input files whose materials objects contain the same entries in a different order are read to the same materials, so that row and column N of the results always belong to Conductor_N.",
  "every permutation of every materials object",
  "n! permutations",
  ["src/Parser.cpp:readMaterials", "README.md"])
p("Analysis options: documented keys override, others keep defaults",
  "Every documented analysis key that is present sets its option to the given value and every absent one leaves the default (order 3, ParaView export on, VisIt export off, folder ./); unrelated keys have no effect; a value of a wrong type throws.",
  "every analysis object",
  "all subsets of keys and values; the documented spelling exportParaViewSolution is only ever tested with the default value",
  ["src/Parser.cpp:Parser::readDriverOptions", "src/SolverOptions.h", "README.md"])
p("The mesh file is looked up next to the input file",
  "For every input file path, the gmsh file that is loaded is <directory of the input file>/<gmshFile>.",
  "every path, relative or absolute, and every working directory",
  "all paths; tests only use relative paths run from the repository root",
  ["src/Parser.cpp:Parser::readModel", "src/pulmtln.cpp:main"])
p("run() writes one result file chosen by the openness, inside the export folder",
  "Driver::run writes the PUL matrices for closed problems, the in-cell potentials for open problems, throws for semi-open ones, no call writes any other result file, and the file lies inside the configured export folder.",
  "every model and every export folder string",
  "all folder strings (with and without trailing separator) and all models",
  ["src/Driver.cpp:Driver::run", "src/Results.cpp:saveToJSONFile"])
p("Graph vertex and edge bookkeeping",
  "After any sequence of addVertex/addEdge/addClosedPath calls on a DirectedGraph the vertex set is exactly the set of ids added, verticesSize is its cardinality, the edge list is exactly the sequence of edges added, adding a present vertex is a no-op, and an edge from a vertex to itself is rejected (a closed path that contains one is rejected there and keeps the edges added before it).",
  "every history of calls and every id",
  "all histories",
  ["src/DirectedGraph.cpp:DirectedGraph::addVertex,addEdge,addClosedPath,getVertices,getEdgesAsPairs"])
p("split() partitions a graph made of closed paths into its connected parts",
  "For a graph built only from closed paths (as mesh graphs are) split returns one graph per connected component: the parts are non-empty, vertex disjoint, cover all vertices and all edges, no edge of the original joins two parts, and two vertices are in the same part iff they are connected.",
  "every sequence of closed paths",
  "all graphs; correctness depends on a depth first search that ignores edge direction only for such graphs",
  ["src/DirectedGraph.cpp:DirectedGraph::split"])
p("split() returns a graph for each disconnected subgraph of any graph",
  "For every graph built through the public interface split returns one graph per connected component containing all its vertices and edges.",
  "every history of addVertex/addEdge/addClosedPath",
  "all graphs; the header promises it for any graph",
  ["src/DirectedGraph.h:split", "src/DirectedGraph.cpp:DirectedGraph::split"])
p("Boundary graph keeps exactly the unmatched edges",
  "getBoundaryGraph contains exactly the edges whose reverse edge is absent, so for consistently oriented cells an edge survives iff it is used by one cell only, and no isolated vertex is present.",
  "every graph",
  "all graphs",
  ["src/DirectedGraph.cpp:DirectedGraph::getBoundaryGraph"])
p("findCycles enumerates all elementary cycles exactly once",
  "Every reported path is an elementary directed cycle of the graph, every elementary directed cycle is reported once up to rotation, and none is reported twice.",
  "every graph",
  "the number of cycles grows exponentially, tests count them on two graphs",
  ["src/DirectedGraph.cpp:DirectedGraph::findCycles"])
p("Openness is decided by whether the open boundary closes on itself",
  "A model without open boundary materials is closed; otherwise (no two open-boundary segments starting at the same vertex) it is open iff every open-boundary segment starts where another one ends, and semi-open otherwise (of several open-boundary materials, which debug builds reject, one is enough); the answer does not depend on the order of the boundary elements.",
  "every set of boundary segments",
  "all boundary polygons and all element orders",
  ["src/Model.cpp:Model::determineOpenness,determineClosedLoops,elementsFormOpenLoops"])
p("Every mesh element belongs to exactly one domain",
  "buildDomains on a closed model assigns every element to one and only one domain, elements sharing a vertex are in the same domain, every domain has at least one element, and domain ids are 0..k-1.",
  "every mesh whose elements are proper polygons",
  "all meshes; stated as a post-condition comment in the code but not checked",
  ["src/Domain.cpp:Domain::buildDomains"])
p("Domain conductors are those whose boundary touches the domain",
  "A conductor id is listed in a domain iff some boundary element with that conductor's tag has at least two vertices in the domain, those boundary elements are exactly the ones listed, and a boundary segment is listed in at most one domain.",
  "every mesh and material list",
  "all meshes",
  ["src/Domain.cpp:getBdrElemsInDomain", "src/Domain.cpp:Domain::buildDomains"])
p("DomainTree construction: acceptance, edges and acyclicity",
  "Building a DomainTree throws iff conductor 0 is not in exactly one domain; otherwise it has one vertex per domain, every edge joins two domains sharing a conductor, domains sharing a conductor are connected through it, edges go from smaller to larger ids and there is no directed cycle (the post-condition assert never fires).",
  "every map of domains with conductor ids other than -1",
  "all domain maps",
  ["src/Domain.cpp:DomainTree::DomainTree"])
p("Conductor 0 is the ground of its domain and every domain has a ground",
  "After buildDomains the ground of the domain containing conductor 0 is 0, the ground of every other domain is the conductor it shares with its parent, and the domain tree is rooted at the domain of conductor 0.",
  "every closed mesh, whatever its element numbering",
  "depends on the numbering of the mesh elements, the test has a single mesh",
  ["src/Domain.cpp:Domain::buildDomains", "src/Domain.h:DomainTree"])
p("Extracting a domain model leaves the global mesh unchanged",
  "buildModelForDomain returns a model with exactly the elements of the domain carrying their original attributes, boundary elements carrying the attribute of the corresponding global boundary element and the ground of the domain, and afterwards the attributes of the global mesh are what they were.",
  "every mesh and every domain",
  "all meshes; the code temporarily overwrites the attributes",
  ["src/Domain.cpp:Domain::buildModelForDomain"])
p("Per-domain PUL parameters are available for multi-domain problems",
  "getPULMTLByDomains returns the PUL parameters of every domain of a closed problem.",
  "every closed model",
  "all models; the multi domain test is disabled",
  ["src/Driver.cpp:Driver::getPULMTLByDomains", "test/DriverTest.cpp:DISABLED_nested_coax_by_domains"])
p("Solver inputs reflect the materials",
  "buildSolverInputsFromModel maps every dielectric tag to its relative permittivity (1 for all of them when dielectrics are ignored), every PEC tag to 0 V, lists every open boundary tag, and adds nothing else; it never throws for materials with distinct names.",
  "every material list",
  "all material lists",
  ["src/Driver.cpp:Driver::buildSolverInputsFromModel"])
p("One unit excitation per conductor",
  "The solution stored for conductor i is the one computed with 1 V on conductor i's tag and 0 V on the tag of every other conductor, with the permittivities of the chosen problem; all the degrees of freedom that are prescribed are the ones of conductors.",
  "every accepted model and every conductor",
  "all models",
  ["src/Driver.cpp:Driver::solveForAllConductors"])
p("Generalized capacitance matrix",
  "Entry (i,j) of getGeneralizedCMatrix is the mean of the charge on conductor j when i is at 1 V and of the charge on i when j is at 1 V; it is n x n, exactly symmetric, and row/column k belongs to Conductor_k.",
  "every accepted model",
  "all models",
  ["src/Driver.cpp:Driver::getGeneralizedCMatrix"])
p("Closed problems: conductor 0 is the reference",
  "For a generalized matrix whose rows add up to zero, the matrix returned by getCFromGeneralizedC(closed) gives the charges q_i, i>=1, as sum_j C_ij (V_j - V_0) for all potentials.",
  "every generalized matrix of any size and all potentials",
  "all matrices, all potentials",
  ["src/Driver.cpp:Driver::getCFromGeneralizedC"])
p("Open problems: charge neutral reduction (Paul eq. 5.21)",
  "For non-closed problems with sum of all entries different from zero, the returned matrix gives the charges q_i, i>=1, as sum_j C_ij (V_j - V_0) for all potentials for which the total charge is zero, and it is the only matrix that does.",
  "every generalized matrix of any size and all potentials",
  "all matrices, all potentials",
  ["src/Driver.cpp:Driver::getCFromGeneralizedC"])
p("The C matrix is exactly symmetric in floating point",
  "The matrix returned by getCMatrix satisfies C(i,j)==C(j,i) bit for bit in IEEE double arithmetic, for closed and open problems, whatever the rounding of the solver.",
  "every matrix of charges (any finite, infinite or NaN entries)",
  "all doubles",
  ["src/Driver.cpp:Driver::getGeneralizedCMatrix,getCFromGeneralizedC,getCMatrix"])
p("C is positive definite, so L exists and is symmetric positive definite",
  "If the generalized capacitance matrix is symmetric positive definite then the C matrix is symmetric positive definite for every openness, the inversion in getLMatrix succeeds and L is symmetric positive definite.",
  "every generalized matrix of any size",
  "all matrices",
  ["src/Driver.cpp:Driver::getCFromGeneralizedC,getLMatrix"])
p("Units and the vacuum identity L C = mu0 eps0 I",
  "getPULMTL returns eps0 times the C matrix with dielectrics and mu0 times the inverse of the one without; if no dielectric has relative permittivity other than 1 then L C = C L = mu0 eps0 I.",
  "every accepted model whose C matrix is invertible",
  "all models",
  ["src/Driver.cpp:Driver::buildPULParametersForModel,getCMatrix,getLMatrix"])
p("Floating potentials leave the other conductors without charge",
  "Row i of getFloatingPotentialsMatrix has a 1 in column i and the other entries are potentials for which every conductor other than i has zero charge according to the capacitance matrix, and they are the only such potentials; one conductor gives the 1x1 matrix 1.",
  "every capacitance matrix for which the systems are regular",
  "all matrices",
  ["src/Driver.cpp:Driver::getFloatingPotentialsMatrix"])
p("Reconstructed fields carry charge only on the prescribed conductor",
  "In the field reconstructed by getInCellPotentials for conductor i the flux through every other conductor vanishes, the stored conductor potentials are the floating potentials, and the monopolar coefficient equals the charge of conductor i.",
  "every accepted open model",
  "all models",
  ["src/Driver.cpp:Driver::getFieldParameters,getInCellPotentials"])
p("Results do not depend on what was asked before",
  "For every sequence of calls to getPULMTL, getCMatrix, getLMatrix, getGeneralizedCMatrix, getFloatingPotentials, getInCellPotentials and run on one Driver, each call returns what it would return on a freshly constructed Driver.",
  "every history of calls",
  "all interleavings of calls that share and overwrite the solver's fields",
  ["src/Driver.cpp", "src/ElectrostaticSolver.cpp:setSolution"])
p("Unsupported configurations are reported as exceptions",
  "A closed problem with a single conductor makes getPULMTL and getGeneralizedCMatrix throw; in-cell potentials throw for non-open problems; floating potentials throw for semi-open ones with two or more conductors; run throws for semi-open ones; nothing is written in those cases. A vacuum capacitance matrix that has no inverse is an error of getLMatrix and getPULMTL: no inductance that is not an inverse is returned.",
  "every model",
  "all models",
  ["src/Driver.cpp:getGeneralizedCMatrix,getFloatingPotentialsMatrix,getInCellPotentials,run"])
p("Boundary markers flag exactly the requested attributes",
  "The marker built from a list of attributes has a 1 exactly at the positions of the listed attributes and covers all boundary attributes of the mesh; the list {-1} flags everything; any other non positive attribute aborts.",
  "every attribute list and mesh",
  "all lists",
  ["src/ElectrostaticSolver.cpp:AttrToMarker"])
p("Changing the Dirichlet conditions changes which boundaries are prescribed",
  "After any history of setDirichletConditions and Solve calls, Solve prescribes exactly the boundaries of the last Dirichlet conditions given.",
  "every history of calls on ElectrostaticSolver",
  "all histories",
  ["src/ElectrostaticSolver.cpp:setDirichletConditions,Solve"])
p("Boundary values are projected attribute by attribute",
  "Solve starts from a potential that takes on each boundary degree of freedom the value given for its attribute (the one with the largest tag where several touch), zero elsewhere, and ignores tags that are not in the mesh.",
  "every value map and boundary",
  "all maps",
  ["src/ElectrostaticSolver.cpp:applyBoundaryConstantValuesToGridFunction"])
p("Total charge is the sum of the charges of the boundaries",
  "getTotalCharge equals the sum over all boundary tags of getChargeInBoundary.",
  "every electric displacement field",
  "all fields; the tests only use neutral configurations where both are zero",
  ["src/ElectrostaticSolver.cpp:getTotalCharge,getChargeInBoundary"])
p("The dipole moment vanishes around the center of charge",
  "For open problems with non zero charge the first order multipolar coefficients around getCenterOfCharge are zero.",
  "every displacement field",
  "all fields",
  ["src/ElectrostaticSolver.cpp:getCenterOfCharge,getChargeMomentComponent,getMultipolarCoefficients"])
p("Shape of the multipolar coefficients",
  "getMultipolarCoefficients(order) has order+1 entries, the second component of the first one is zero (so evaluating the expansion never hits its assertion), the first one is the charge on the non-open boundaries, and all are linear in the field for a fixed center.",
  "every order and field",
  "all fields",
  ["src/ElectrostaticSolver.cpp:getMultipolarCoefficients,getChargeMomentComponent", "src/multipolarExpansion.h"])
p("The multipolar expansion is a harmonic potential",
  "Away from its center multipolarExpansion equals -a0/(2 pi) ln r plus 1/(2 pi) the sum of Re((a_n + i b_n)... / z^n) terms, satisfies Laplace's equation, is linear in the coefficients and invariant under translating point and center together.",
  "all coefficients, orders, centers and points different from the center",
  "continuum of points",
  ["src/multipolarExpansion.h:multipolarExpansion"])
p("Moments and expansion together approximate the true potential",
  "For any point charges inside a disc, the expansion evaluated with the moments computed by momentComponent differs from the exact logarithmic potential by at most the geometric remainder (rho/r)^(N+1).",
  "all charge distributions, orders and points outside the disc",
  "continuum",
  ["src/multipolarExpansion.h:multipolarExpansion,momentComponent"])
p("The open boundary condition absorbs a monopole exactly",
  "The logarithmic potential of a line charge at the origin satisfies d(phi)/dr + firstOrderABC * phi = 0, and the coefficient keeps the system positive.",
  "every radius",
  "continuum",
  ["src/ElectrostaticSolver.cpp:firstOrderABC"])
p("PUL parameters survive a JSON round trip",
  "Building PULParameters from the JSON produced by toJSON gives parameters equal (operator==) to the original ones.",
  "all matrices C and L without NaN that have some column or no row",
  "all sizes and values",
  ["src/Results.cpp:PULParameters::PULParameters,toJSON,operator=="])
p("In-cell potentials survive a JSON round trip",
  "Building InCellPotentials from the JSON produced by toJSON gives potentials equal (operator==) to the original ones. Building them from any JSON value succeeds exactly when the value describes in-cell potentials, and gives those (conductors numbered in the order of the value); other values throw, except that a multipolar coefficient of less than two numbers is undefined behaviour.",
  "all in-cell potentials produced by the Driver",
  "all sizes and values",
  ["src/Results.cpp:InCellPotentials"])
p("Result equality is equality",
  "operator== on FieldReconstruction, InCellPotentials and PULParameters holds iff all the stored numbers are equal; it is reflexive, symmetric and transitive on NaN free values.",
  "all pairs of values",
  "all pairs",
  ["src/Results.cpp:operator=="])
p("Matrices read from JSON are rectangular or rejected",
  "Reading a matrix from a list of rows throws if the rows have different lengths and otherwise yields the matrix with those rows. Constructing PULParameters from a JSON value reads C and L this way when both are arrays of arrays of numbers and throws otherwise.",
  "all lists of rows",
  "all shapes",
  ["src/Results.cpp:toMFEMDenseMatrix,PULParameters::PULParameters"])
p("Integration planes subdivide the integration box",
  "For an integration box containing the inner region the planes of each axis are strictly increasing, start and end at the box, contain the faces of the inner region, and a box that does not contain the inner region is rejected.",
  "all boxes",
  "continuum",
  ["src/Results.cpp:buildIntegrationPlanesForBox"])
p("The box average is a true average",
  "getAveragePotential splits the box exactly into the inner region and the cells outside it: it is linear in the potential, it is exact for constant potentials, and lies between the smallest and the largest potential.",
  "all boxes and potentials",
  "continuum",
  ["src/Results.cpp:getAveragePotential"])
p("On-box and inner-region parameters agree on the inner region",
  "For the inner region box getCapacitanceOnBox and getInductanceOnBox return the same as getCapacitanceUsingInnerRegion and getInductanceUsingInnerRegion. On any larger box they use, instead of the average over the inner region, the mean of the reconstructed potential over the box (inner region and cells outside it).",
  "all in-cell potentials, all pairs of conductors",
  "all values; tests have equal electric and magnetic potentials",
  ["src/Results.cpp:getCapacitanceOnBox,getInductanceOnBox,getInductanceUsingInnerRegion"])
p("Coupling coefficients are normalised by the self capacitance",
  "getCapacitiveCouplingCoefficients has ones in the diagonal (exactly, in floating point) and C(i,j)/C(i,i) elsewhere, for all square matrices with non zero finite diagonal.",
  "all matrices",
  "all doubles",
  ["src/Results.cpp:getCapacitiveCouplingCoefficients"])
p("Inner region average potential",
  "The average over the inner region weights each material of the inner region once with its area: it lies between the smallest and largest of the material averages, and outer vacuum regions do not contribute.",
  "all material lists, areas and potentials",
  "all values",
  ["src/Driver.cpp:getInnerRegionAveragePotential,listMaterialsInInnerRegion"])
p("Bounding box of a material",
  "getBoundingBoxOfMaterial contains all vertices of the elements with the material's tag and is the smallest such box. An unknown name throws; a material without elements has the empty box (inf to -inf).",
  "all meshes",
  "all meshes",
  ["src/Model.cpp:getBoundingBoxOfMaterial"])
p("Area of a material",
  "getAreaOfMaterial is the sum of the areas of the elements with the tag for dielectrics, the declared area for conductors, and throws for unknown names and for open boundaries; the areas of dielectrics with different tags add up to at most the mesh area.",
  "all meshes and names",
  "all meshes",
  ["src/Model.cpp:getAreaOfMaterial"])
p("Exported solutions do not overwrite each other",
  "The export names used for different conductors, for with/without dielectrics, and for prescribed/floating solutions are pairwise different for every accepted model whose conductors have names with an underscore, as the documented Conductor_N (accepted names without one can collide).",
  "all accepted conductor names with an underscore, all folders",
  "all strings",
  ["src/Driver.cpp:exportFieldSolutions,solveForAllConductors,getFieldParameters"])
p("Solution snapshots",
  "A solution taken with getSolution is not affected by later operations, and setSolution restores exactly the fields so that all derived quantities are those of the snapshot.",
  "every history of operations",
  "all histories",
  ["src/ElectrostaticSolver.cpp:getSolution,setSolution"])
p("Average potentials are averages",
  "getAveragePotentialInDomain and getAveragePotentialInBoundary return c for a constant potential c, are linear, and are independent of the potential elsewhere.",
  "all potentials and meshes",
  "continuum",
  ["src/ElectrostaticSolver.cpp:getAveragePotentialInDomain,getAveragePotentialInBoundary"])
p("Energy is a positive quadratic form",
  "getTotalEnergy is non negative for positive permittivities, scales with the square of the field, and is proportional to the permittivity scale.",
  "all fields",
  "continuum",
  ["src/ElectrostaticSolver.cpp:getTotalEnergy"])
p("Fields minimize the energy",
  "Solve returns the potential with the prescribed values on the Dirichlet boundaries that has strictly the least energy (1/2 integral of eps |grad phi|^2 plus the absorbing term on open boundaries minus the work of the surface charges) among all potentials of the H1 space with these values; equivalently the only one that satisfies the weak form of Poisson's equation. E is minus its gradient and D the projection of eps E to the RT space.",
  "all meshes, orders, boundary values, permittivities (as tables of basis functions at quadrature points)",
  "a minimum over a continuum of potentials, for all meshes",
  ["src/ElectrostaticSolver.cpp:ElectrostaticSolver,Assemble,Solve"])
p("Superposition",
  "The fields depend linearly on the boundary values: the field for potentials V on the conductors is the combination of the unit solutions with coefficients V, and the fields reconstructed by getInCellPotentials from the unit solutions are those a solver would compute with the stored potentials.",
  "all models, potentials, histories",
  "all combinations of a continuum of values",
  ["src/ElectrostaticSolver.cpp:Solve", "src/Driver.cpp:getFieldParameters,loadFloatingPotentialsFieldSolution"])
p("Closed problems only see differences of potential",
  "In closed problems equal potentials on all conductors give a constant potential, no field and no charge; adding a constant to all potentials changes neither E nor D; the charges of the unit solutions on each conductor add up to zero and so do the rows of the generalized capacitance matrix.",
  "all closed models",
  "all meshes and potentials",
  ["src/ElectrostaticSolver.cpp:Solve,getChargeInBoundary", "src/Driver.cpp:getGeneralizedCMatrix"])
p("Homogeneous medium",
  "A closed problem filled with a homogeneous medium of relative permittivity er has the potentials and E of vacuum, er times its D, and L C = mu0 eps0 er times the identity: all modes travel with the speed of light in the medium.",
  "all closed models with a homogeneous medium",
  "all meshes",
  ["src/Driver.cpp:getPULMTL,getCMatrix,getLMatrix", "src/ElectrostaticSolver.cpp:Solve"])
p("PUL parameters exist and are positive definite",
  "On connected meshes getPULMTL returns (without exceptions) symmetric positive definite matrices C and L, and getFloatingPotentials returns its matrices.",
  "all models and meshes",
  "positivity for all potentials; all meshes",
  ["src/Driver.cpp:getPULMTL,getGeneralizedCMatrix,getCFromGeneralizedC,getFloatingPotentials"])
p("Unit of length",
  "The parameters per unit length do not depend on the unit of length of the mesh. (Holds for closed problems, and for open ones if the absorbing coefficient scales like 1/length; the coefficient -1/(r ln r) of the code does not.)",
  "all models, all scale factors",
  "all meshes and a continuum of scales",
  ["src/ElectrostaticSolver.cpp:firstOrderABC", "src/Driver.cpp:getPULMTL"])
p("Energy agrees with the capacitance matrix",
  "The energy reported by getTotalEnergy for potentials V on the conductors of a closed problem is 1/2 sum C_ij (V_i - V_0)(V_j - V_0) with the matrix of getCMatrix.",
  "all closed models, potentials",
  "all meshes and potentials",
  ["src/ElectrostaticSolver.cpp:getTotalEnergy", "src/Driver.cpp:getCMatrix"])
p("The capacitance matrix gives the charges of the fields",
  "The matrix of getCMatrix applied to the potentials relative to conductor 0 gives the charges on the other conductors in the field the solver computes for these potentials: for all potentials in closed problems, for those with total conductor charge zero in open ones.",
  "all models, potentials",
  "all meshes and potentials",
  ["src/Driver.cpp:getCMatrix,getCFromGeneralizedC", "src/ElectrostaticSolver.cpp:getChargeInBoundary"])
p("The program writes the result of its input file beside it",
  "pulmtln -i FILE that exits with 0 has written exactly one result file, in the directory of FILE: pulmtln.out.json with the getPULMTL result of FILE if the problem is closed, inCellPotentials.out.json with the in-cell parameters if it is open; a run that fails writes no result, --help and no arguments write nothing; unknown arguments, a missing value and an option given twice are errors. An input file that cannot be opened or parsed, or whose mesh cannot be read, ends the program with the exception of the reader and nothing is written. (Holds for relative paths; absolute ones are taken relative to the working directory; README's matrices.pulmtln.out.json is never written.)",
  "all command lines, input files, meshes, working directories",
  "all paths and files",
  ["src/pulmtln.cpp:main", "src/Driver.cpp:loadFromFile,run"])
p("The exportFolder of the input file is where the program exports the fields",
  "Every ParaView or VisIt export made by the program is below the exportFolder option of the input file and carries the name of one of its conductors. (Holds for the exports made when the Driver is built; those made by run go to the directory of the input file, because main overwrites the folder.)",
  "all command lines and input files",
  "all runs",
  ["src/pulmtln.cpp:main", "src/Driver.cpp:Driver,run,setExportFolder"])
p("The numbers of the conductors only order the results",
  "Two input models on the same mesh with the same tags and media whose conductors are numbered and named differently give the same generalized capacitance matrix up to that permutation of rows and columns; so do C and L of getPULMTL when conductor 0 stays conductor 0, and the floating potentials of open problems (of closed ones when conductor 0 stays). The in-cell parameters exist for both or for neither when the media have the same names and the conductors the same areas, with the same box, averages, centres and multipolar coefficients for the field of each conductor.",
  "all meshes, materials, permutations, orders, histories of earlier calls",
  "all meshes and permutations",
  ["src/Driver.cpp:getGeneralizedCMatrix,getCMatrix,getLMatrix,getFloatingPotentialsMatrix,getInCellPotentials", "src/Materials.cpp"])
p("In vacuum the electric and the magnetic results are the same",
  "If all media have the relative permittivity 1, getGeneralizedCMatrix and getFloatingPotentialsMatrix do not depend on ignoreDielectrics, the electric and magnetic parts of getInCellPotentials are the same, and the in-cell capacitances and inductances (inner region or on any box) satisfy C L = mu0 eps0.",
  "all models with relative permittivities 1, open or closed, all finite element libraries, any arithmetic, all histories of calls (real arithmetic), boxes, conductors",
  "all meshes, boxes and histories",
  ["src/Driver.cpp:buildSolverInputsFromModel,getInCellPotentials,getFloatingPotentials,getGeneralizedCMatrix", "src/Results.cpp:getCapacitanceOnBox,getInductanceOnBox"])
p("First order elements: the piecewise linear potential of least energy",
  "For every closed cross section drawn on a connected mesh of triangles (conductors that do not touch, positive permittivities) and all potentials of the conductors, the solver of order 1 raises no exception and computes the one piecewise linear potential with these values on the conductors that has the least energy 1/2 integral of eps |grad phi|^2; getTotalEnergy is that energy, and E is minus the gradient in every point of every triangle.",
  "all triangle meshes, materials, potentials, quadrature rules with positive weights exact for constants",
  "all meshes and potentials",
  ["src/ElectrostaticSolver.cpp:ElectrostaticSolver,Assemble,Solve,getTotalEnergy", "src/FES.h:H1,ND,RT"])
p("Parameters do not depend on how the cross section is drawn",
  "Drawing the same cross section elsewhere, turned, in other units of length, with other numbers of the vertices, another order of the elements and boundary elements and another first vertex of each triangle changes neither the generalized capacitance matrix, nor the parameters per unit length, nor the floating potentials (and getPULMTL answers for one drawing if it does for the other). In-cell parameters turn with a drawing turned about the origin: the same potentials and averages, the centre of charge turned, the same multipolar expansion at the turned points.",
  "all triangle meshes and materials, all similarities and renumberings, both kinds of problems, all histories of calls; order 1, and any order when vertices keep their numbers",
  "all meshes, drawings and numberings",
  ["src/ElectrostaticSolver.cpp:ElectrostaticSolver,Assemble,Solve,chargeInBoundary,firstOrderABC", "src/Driver.cpp:getGeneralizedCMatrix,getPULMTL,getFloatingPotentialsMatrix", "src/FES.h:H1,ND,RT"])
p("Charges are fluxes of the conservative field nearest to eps E",
  "With first order elements the displacement field of a solved problem is piecewise of the form (a + c x, b + c y), loses no flux between triangles, and of all such fields is strictly the nearest to eps E in the mean square (E minus the gradient of the piecewise linear potential); getChargeInBoundary(t) is the total flux of that field entering the domain through the boundary with tag t.",
  "all triangle meshes, materials, potentials of the conductors, tags, open and closed problems; order 1",
  "all meshes and all competing fields",
  ["src/ElectrostaticSolver.cpp:Solve,getChargeInBoundary,chargeInBoundary", "src/FES.h:RT"])
p("Exact solutions are found: parallel plates",
  "If a piecewise linear potential with the prescribed conductor potentials is an exact solution of the cross section (eps E loses no flux between triangles nor through the sides without conductor), the solver returns exactly it and reports the exact fluxes as charges. In particular, for two parallel plates of width w at a distance d with layers of dielectrics between them, getPULMTL returns C = eps0 w / (sum of thickness over permittivity) and L = mu0 d / w, whatever the triangulation.",
  "all triangle meshes (all triangulations of the plates), all layers, potentials and tags, all histories of calls; order 1, closed problems",
  "the tests check the plates on one mesh with one and two permittivities, not on every mesh",
  ["src/ElectrostaticSolver.cpp:ElectrostaticSolver,Solve,getChargeInBoundary", "src/Driver.cpp:getPULMTL,getGeneralizedCMatrix", "test/ElectrostaticSolverTest.cpp:parallel_plates,parallel_plates_epsr2"])
p("Potentials lie between those of the conductors",
  "In a closed cross section with positive permittivities, the potential at every vertex, and the average potential in every domain, lies between the lowest and the highest potential prescribed on the conductors.",
  "all triangle meshes, dielectrics, conductors and prescribed potentials; order 1, closed problems",
  "the tests look at a few potentials on fixed meshes; the range must hold at every vertex of every mesh",
  ["src/ElectrostaticSolver.cpp:ElectrostaticSolver,Solve,getAveragePotentialInDomain", "src/Driver.cpp:getFloatingPotentialsMatrix"])
p("The energy grows with the permittivities",
  "Raising the permittivity of any regions, with the same mesh, conductors and potentials, never lowers the total energy reported.",
  "all triangle meshes (any order: all finite element spaces), all pairs of dielectrics, all potentials; closed problems",
  "one test compares two permittivities; monotonicity must hold for every pair of materials on every mesh",
  ["src/ElectrostaticSolver.cpp:Solve,getTotalEnergy", "src/Driver.cpp:loadMaterials"])
p("Refining the mesh never raises the energy",
  "If every triangle of a mesh is divided into triangles (new vertices on the old conductors taking the conductor's tag), the total energy reported for the refined mesh is not above that reported for the first one.",
  "all triangle meshes and all conforming refinements of them (any order: all pairs of finite element spaces of which one contains the other), all dielectrics and potentials; closed problems",
  "convergence tests look at one sequence of meshes",
  ["src/ElectrostaticSolver.cpp:ElectrostaticSolver,Solve,getTotalEnergy"])
p("Field exports contain the fields they name",
  "Every ParaView or VisIt export written by a Driver, at construction or by any call after any history of calls, is that of one conductor: it contains the potential, displacement and electric field of 1 V on that conductor and 0 V on the others or, when the name says the others are floating, the combination with 1 V on that conductor for which the others have no charge in the generalized capacitance matrix, with or without dielectrics as the name says. So an export written again under the same name has the same contents; and a successful getGeneralizedCMatrix or getInCellPotentials writes that of every conductor.",
  "all well posed models, options, finite element spaces, histories of calls and last calls",
  "The exported solver object is shared between calls and overwritten; tests do not open the exported files, and the claim ranges over all histories.",
  ["src/Driver.cpp:exportFieldSolutions,solveForAllConductors,getGeneralizedCMatrix,getFieldParameters,getPULMTLByDomains", "src/ElectrostaticSolver.cpp:writeParaViewFields,writeVisItFields"])
p("What the iterative solver does to the potential",
  "Solve does not invert the system matrix: it runs mfem::PCG with a symmetric Gauss-Seidel smoother for at most 500 iterations and relative tolerance 1e-12, from the prescribed values continued by zero, and ignores whether it converged. Whatever the outcome, the potential has exactly the prescribed values, E is minus its gradient, and its energy lies between the least one (that of the exact solution) and that of the start, equal to the least only at the exact potential. The square of its error in the energy norm is at most max(1e-12 k, (1-1/k)^500) times that of the start, and at most 1e-12 k times it with 500 unknowns or fewer, where k is the condition number of the preconditioned problem; such a k exists for every regular problem. In closed problems without surface charges the total energy reported never lies below the exact one.",
  "all discretizations, solver inputs, numbers of unknowns and outcomes of the iteration (converged or stopped after 500 steps)",
  "A statement about every matrix PCG may meet, whether or not it converges; a test sees a few meshes on which it does.",
  ["src/ElectrostaticSolver.cpp:ElectrostaticSolver::Solve,getTotalEnergy"])
p("What the iterative solver does to D and to the charges",
  "D is computed from E by a second PCG solve from zero (500 iterations, relative tolerance 1e-12, MFEM's default absolute tolerance 1e-24). In the integral norm it differs from the projection of eps E by no more than that projection itself, by at most max(r |proj|^2, 1e-24 k) and, with at most 500 degrees of freedom, by k max(1e-12 |proj|^2, 1e-24), for the condition number k and the reduction r it implies. The charge getChargeInBoundary reports then differs from that of the exact fields by no more than these errors and those of the potential (C77) allow, with explicit constants that exist for every mesh.",
  "all discretizations, solver inputs, boundary tags, outcomes of the iterations",
  "A bound on every system the two iterations may meet; tests compare single charges with loose tolerances.",
  ["src/ElectrostaticSolver.cpp:ElectrostaticSolver::Solve,getChargeInBoundary"])
p("What the iterative solver does to the capacitance and inductance matrices",
  "The Driver solves its linear systems with PCG stopped after 500 iterations or at a relative tolerance of 1e-12 and ignores whether it converged. Whenever the generalized capacitance matrix of the exact solution exists, so does the one it computes, with the same size, and every entry differs by at most an explicit tolerance made of condition numbers, flux bounds and the energies of the starting potential; such constants exist for every mesh. For closed problems C differs by at most eps0 times that tolerance, and each entry of L by at most tolerance/mu0 times the row sum of the one inductance matrix and the column sum of the other. In open and semi-open problems the same holds with the tolerance enlarged by the charge-neutral reduction, an explicit formula in the row sums and the total of the generalized matrix. The parameters exist for the iterative solver whenever the exact ones do and the product of that tolerance and the sum of the entries of L is below mu0.",
  "all meshes, models, Drivers, earlier calls on them, condition numbers, outcomes of the iterations",
  "A bound on every system the iterations may meet, carried through the charges, the symmetrisation and the inverse; tests compare single matrices with loose tolerances.",
  ["src/Driver.cpp:Driver::getCMatrix,getLMatrix,getPULMTL", "src/ElectrostaticSolver.cpp:ElectrostaticSolver::Solve,getChargeInBoundary"])
p("When in-cell parameters are produced",
  "getInCellPotentials returns parameters exactly for open cross-sections with one open boundary and an inner region called Vacuum_0 whose floating potentials (getFloatingPotentials) exist, whatever was called before; with one conductor the last condition always holds, with several it holds on connected meshes whose charges obey Gauss's law. Without a material called Vacuum_0 it throws std::out_of_range before any field is written.",
  "all models, finite element libraries, Drivers built from them, earlier calls",
  "A total characterisation of success over all models and histories; tests only run inputs that succeed.",
  ["src/Driver.cpp:Driver::getInCellPotentials,getFieldParameters,getInnerRegionAveragePotential,getFloatingPotentialsMatrix", "src/ElectrostaticSolver.cpp:getCenterOfCharge,getMultipolarCoefficients", "src/Model.cpp:getBoundingBoxOfMaterial,getAreaOfMaterial"])
p("Ownership and lifetimes",
  "A program that creates meshes, solvers and solutions, uses a solver only while its mesh exists, reads fields only after Solve or setSolution and does not copy solvers never uses or deletes released memory and never reads values that were not stored, although the open boundary coefficient and the coefficients of boundary integrals die before the forms that refer to them; once its variables are gone nothing is left allocated, also when an exception ends it at any point. The same holds for a Driver and the drivers of its subdomains whatever is called. Copying a solver must be safe and a constructor that throws must not leak: both are false.",
  "all programs (finite sequences of operations on any number of objects), all points at which an exception can end them, all orders of destruction; all numbers of conductors, options and calls of a Driver",
  "Memory errors depend on the history and on the order of destruction; a test executes one history and does not see dangling references that happen to be harmless.",
  ["src/ElectrostaticSolver.h:ElectrostaticSolver,SolverSolution", "src/ElectrostaticSolver.cpp:ElectrostaticSolver::ElectrostaticSolver,~ElectrostaticSolver,Assemble,Solve,getSolution,setSolution,buildHDivBoundaryIntegrator,buildH1BoundaryIntegrator", "src/FES.cpp:H1_FESpace,ND_FESpace,RT_FESpace,L2_FESpace", "src/Driver.h:Driver,SolvedProblem", "src/Driver.cpp:solveForAllConductors,getPULMTLByDomains"])
p("No undefined behaviour",
  "Building a Driver, any call on it after any others, and the executable on any input file never have undefined behaviour: no index out of bounds, no read of an indeterminate value, no conversion of an unrepresentable number, no solution of a singular system, on every mesh that MFEM accepts and for all materials. Four cases are exceptions, and the only ones: a conductor's name with no character to read a number from, a dielectric only on boundary elements with a tag beyond those of all regions (an assertion in debug builds), outer edges without boundary element in getPULMTLByDomains, and the singular systems of floating conductors.",
  "all meshes, materials, options and builds (debug or release), all sequences of calls, all arguments and input files whose tags and order fit an int",
  "Undefined behaviour need not show in a test even when it occurs, and it must be absent for every input and history.",
  ["src/Driver.cpp:Driver::Driver,solveForAllConductors,getCMatrix,getLMatrix,getPULMTL,getFloatingPotentials,getInCellPotentials,run,getPULMTLByDomains", "src/ElectrostaticSolver.cpp:ElectrostaticSolver::ElectrostaticSolver,Solve,setSolution", "src/Materials.cpp:getMaterialIdFromName", "src/Domain.cpp:buildDomains,buildModelForDomain", "src/Parser.cpp:readModel,readMaterials,readDriverOptions", "src/pulmtln.cpp:main"])
p("Exports and messages do not change the numbers",
  "The options exportParaViewSolution, exportVisItSolution, exportFolder and printIterations, and setExportFolder, have no influence on any result: two Drivers of one model whose options agree in the order of the elements and of the expansions accept or reject the model alike, give the same result (or the same failure) for every call after the same calls, and write JSON files with the same contents. A kind of export that is switched off is never written, and one that is switched on does not depend on the other switch.",
  "all models, options, finite element libraries, arithmetics, builds and sequences of calls",
  "A dependence could hide in any sequence of calls, since exporting happens between the solves and uses the state of the solver.",
  ["src/Driver.cpp:exportFieldSolutions,Driver::Driver,solveForAllConductors,getGeneralizedCMatrix,getFieldParameters,run", "src/Driver.h:DriverOptions,setExportFolder"])
p("Rounding errors of the reported numbers are bounded",
  "In IEEE double precision (round to nearest, no contraction) the post-processing of a finite element solution loses only a few units in the last place. With u = 2^-53: each entry of the C matrix of an open or semi-open problem with N conductors is a number within 16 N^2 k^2 u A of the exact reduction of the same generalized matrix, where A is the sum of the absolute values of its entries and k the ratio of A to the absolute value of their total (if 4 N^2 k u <= 1 and A is between 2^-400 and 2^400); for closed problems there is no error at all. Parameters per unit length differ from eps0 C and mu0 L by at most two roundings, the inductance of two conductors in a closed problem from mu0 over their capacitance without dielectrics by at most three, in an open one by a relative error of at most 2 E / c + 8 u where c is that capacitance and E <= c / 2 the bound of its error, in-cell capacitances and inductances from eps0 Q / (V - average) and mu0 (A - average) / I by at most five and four, and the average potential of an inner region of k materials from the area-weighted average by at most 8 (k + 1) u times a bound of the potentials. Nothing overflows, underflows or becomes NaN on the way.",
  "all matrices, Drivers, in-cell records, models and solutions in double precision whose values are zero or between 2^-400 and 2^400 in size",
  "Rounding depends on every bit of every operand; tests sample a few values and compare with tolerances that have to be guessed.",
  ["src/Driver.cpp:getCFromGeneralizedC,buildPULParametersForModel,getInnerRegionAveragePotential", "src/Results.cpp:getCapacitanceUsingInnerRegion,getInductanceUsingInnerRegion", "src/constants.h:EPSILON0_SI,MU0_SI"])
p("Elements of every order compute the potential of least energy",
  "For every cross section drawn on triangles and every order of the elements (3 by default): a new solver with given potentials on the conductors finds, in closed problems, the potential that is continuous across all sides, has the given value in every point of every conductor and has strictly the least energy 1/2 integral of eps |grad phi|^2 among all such potentials of that order; getTotalEnergy returns this energy. In closed and open problems E is minus the gradient in every point of every triangle, the component of E along a common side and the flow of D across it are the same in both triangles, D has the same integral as eps E against every field of its space, and the charge reported for a conductor is minus the flow of D out of the domain through its lines. (C59, C60: adding a constant to all potentials changes no field, the generalized matrix adds up to zero, L C = mu0 eps0 er in homogeneous media, at every order.)",
  "all meshes of triangles, materials, potentials of the conductors, quadrature rules and reference elements of any order that satisfy the conditions of reference_ok; Lagrange and Nedelec elements of the orders 1, 2 and 3 do",
  "Tests compare a few capacitances with tolerances; they cannot show that every solution on every mesh is continuous, takes its boundary values between the nodes and is minimal.",
  ["src/ElectrostaticSolver.cpp:ElectrostaticSolver,Assemble,Solve,getTotalEnergy,getChargeInBoundary", "src/SolverOptions.h:SolverOptions::order", "src/FES.cpp:H1_FESpace,ND_FESpace,RT_FESpace,DiscreteGradOperator"])
p("Materials are looked up by name and number",
  "For each kind of material: buildNameToAttrMapFor maps each name in use to the tag of the last material listed with it and has no other keys; buildIdToAttrMapFor does the same by number, and is undefined when a name holds no number; get(name) and get(id) refer to the first material listed with that name or number and throw runtime_error when there is none, so that with distinct names (numbers) both ways agree. buildNameToAttrMap prefers conductors to open boundaries and these to media. removeMaterialsNotInList keeps exactly the materials whose names are keys of its argument, of every kind and in order, whatever their tags; with the map of all names it removes nothing. isDomainMaterial holds of the names of media only.",
  "all lists of materials, with repeated names and numbers or not, all names and numbers",
  "Tests look up a few materials with distinct names; which one is meant when names or numbers repeat, and what is absent from a map, ranges over all lists.",
  ["src/Materials.h:buildNameToAttrMapFor,buildIdToAttrMapFor,get", "src/Materials.cpp:buildNameToAttrMap,removeMaterialsNotInList,isDomainMaterial"])
p("The potential found is the best approximation of a finer one",
  "In closed problems, of all potentials of a mesh and an order that have the values of the conductors, the one Solve finds is strictly closest, in the energy of the difference, to what Solve finds with a richer space: higher orders (up to 3) on the same triangles, or a mesh whose triangles are cut into smaller ones. The energy of that error is exactly the difference of the two energies getTotalEnergy reports. With ever richer spaces the errors against the last never grow.",
  "all closed cross sections, meshes, orders, potentials and permittivities, and all richer spaces",
  "A test can compare two resolutions of one example; that no other potential is closer, and what the change of the energy says about the error, is a statement about all potentials of all meshes.",
  ["src/ElectrostaticSolver.cpp:ElectrostaticSolver::Solve,getTotalEnergy", "src/SolverOptions.h:order", "src/ElectrostaticSolver.cpp:assemble"])
p("The program ends well exactly when its input can be solved",
  "Asked for an input file, the program ends as the computation it asks for: with the exception of the reader if the file or its mesh cannot be read, with an exception before anything is computed if the conductors are not numbered from 0 up, with an exception if the open boundary is neither absent nor around everything, and otherwise as getPULMTL (closed problems) or getInCellPotentials (open ones) of a Driver built for the input. So it ends well if and only if that Driver exists and gives these parameters; for charges that obey Gauss's law on a connected mesh it always does, given two conductors (closed) or an inner region and one open boundary (open). In closed problems stopping the iterative solver after 500 iterations does not change this while the error of the charges stays small against the parameters. For two parallel plates with any stack of layers, the file it writes, read back, holds the exact capacitance and inductance, with elements of any order.",
  "all command lines, input files, meshes, materials and options",
  "Tests run the program on a few files that work; that no good input fails, no bad one passes, and that what is read back from the file is the answer are statements about all inputs.",
  ["src/pulmtln.cpp:main", "src/Driver.cpp:Driver::loadFromFile,Driver::run", "src/Parser.cpp:Parser::readModel", "src/Results.cpp:saveToJSONFile,PULParameters::PULParameters"])

out = os.path.join(os.path.dirname(__file__), "..", "properties.jsonl")
with open(out, "w") as f:
    for x in P:
        f.write(json.dumps(x) + "\n")
print(len(P))
