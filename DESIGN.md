# Formal model of OpenSEMBA/tulip in Rocq (Coq 8.16.1)

The properties are in `properties.jsonl` (C01..). The model and proofs are in
`rocq/theories` (logical name `Verif`). `MANIFEST.json` maps properties to theorems.

## 1. Method

* The model is a set of small, total, computable Gallina functions, one per C++ function,
  each with a comment citing the file and lines it models and the simplifications made.
* C++ effects are made explicit with an outcome type `outcome A := Ok a | Throw e | Undef u`:
  `Throw` is a C++ exception (or an MFEM abort, `MFEM_VERIFY`), `Undef` is undefined behaviour
  (reading an uninitialised int, out-of-bounds access, ...). `assert` is active only in debug
  builds; the functions that contain one take a boolean `dbg` and yield `Throw AssertFailed`
  in debug builds only.
* `std::map`, `std::set`, `std::multimap` are association lists sorted by key (iteration order
  is observable in this code). `std::vector` is `list`.
* Doubles: the model functions are polymorphic in a class `Num T` (operations only, no laws).
  Theorems about real-number semantics are at the instance `T := R` (Coq's reals; rounding is
  abstracted), theorems about bit-exact results are at the instance `T := PrimFloat.float`
  (IEEE binary64) or for every `T`. Witnesses are computed at `T := Q`.
* Third party code is modelled by contract: Boost (`connected_components`: directed depth
  first search in vertex order; `tiernan_all_cycles`: enumeration of elementary paths),
  nlohmann::json (in-memory values, `at`/`find`/`get<T>`/`value`), MFEM (dense matrices and
  exact LU solution, linear forms as sums over quadrature points). The finite element solve is
  a record of functions (`fem`, Solver.v) about which C01-C56 assume nothing or what the theorem
  says; Fem.v instantiates it with the forms the code assembles from tabulated basis functions,
  the elimination of essential degrees of freedom and an exact linear solver (C57-C64); Triangles.v tabulates the basis functions for first order
  elements on triangles (C69), Elements.v for elements of any order on triangles from a reference element (C85; RefElements.v: orders 1 to 3).

## 2. Files

See section 5.

## 3. Per-property plan

| id | modelled | proof |
|----|----------|-------|
| C01 | `stringstream >> int` on strings | induction over digits; SpecName.v/NameAny.v: the outcome for every name, by its decomposition into prefix, blanks, sign, digits |
| C02 | constructor of Driver as decision procedure | sortedness + permutation argument |
| C03 | Model constructor | map lookup lemmas |
| C04, C05 | JSON values, readMaterials | induction over entries; canonical sorted maps |
| C06 | readDriverOptions | case analysis; the documented ParaView key is refuted |
| C07 | path strings and POSIX resolution | string lemmas; absolute paths refuted |
| C08 | run with an output trace | case analysis; folder without separator refuted |
| C09 | DirectedGraph as boost adjacency_list | invariant over histories |
| C10, C11 | DFS and split | DFS = reachability; symmetric reachability for closed paths; refuted in general |
| C12 | getBoundaryGraph | list lemmas |
| C13 | path enumeration | soundness, completeness, NoDup |
| C14 | determineOpenness | permutation argument on successor maps |
| C15, C16 | buildDomains | from C10 |
| C17, C18 | DomainTree, grounds | invariants on the edge list; refuted for some numberings |
| C19 | buildModelForDomain with an explicit mesh state | restoration lemma |
| C20 | getPULMTLByDomains | never Ok with two or more domains (refuted) |
| C21, C22 | buildSolverInputsFromModel, solveForAllConductors | map lemmas |
| C23, C26 | getGeneralizedCMatrix, Symmetrize | any T; IEEE commutativity |
| C24, C25 | getCFromGeneralizedC | finite sums over R |
| C27, C28 | getLMatrix, buildPULParametersForModel | exact Gaussian elimination, quadratic forms |
| C29, C30 | floating potentials, field reconstruction | same; C30's charge of the other conductors is proved in terms of the asymmetry of the raw charges, and refuted on the mesh of Bars.v (fields computed over Q and certified over R: Transfer, Certificate, RationalMesh, RationalModel) |
| C31 | Driver as a state machine | simulation over histories |
| C32 | guards | case analysis |
| C33-C35 | AttrToMarker, solver state machine | lists; histories; stale markers and stale elimination (MFEM eliminates once, FormSystemMatrix) refuted; Solver.v keeps the eliminated dofs in the state |
| C36-C38 | boundary linear forms | finite sums; sign of the total charge refuted |
| C39-C41 | multipolarExpansion, momentComponent, firstOrderABC over R | complex powers, derivatives |
| C42-C45 | JSON (de)serialisation, equality | round trip; what is read from any JSON value, by relations between values and results (SpecResults.v); non-consecutive keys and ragged input refuted |
| C46, C47 | integration planes, averages | sorted lists; telescoping sums |
| C48 | on-box parameters | inner region by C47 with no cells; any box by the tiling of C47; inductance refuted |
| C49 | coupling coefficients | R and IEEE |
| C50 | inner region average | convexity |
| C51, C52 | bounding box, areas | folds |
| C53 | export names | strings |
| C54 | getSolution/setSolution | state machine |
| C55, C56 | average potentials, energy; on triangles with elements of order 1 (SpecOpen.v, PropsOpen.v) and of any order (SpecAverages.v, ElemOpen.v, PropsElemOpen.v) | finite sums |
| C57 | Fem.v: weak form, elimination of essential dofs, exact solve | the solved system is the weak form; strict convexity |
| C58 | same, and getInCellPotentials | linearity and uniqueness of the weak solution |
| C59 | same | constants solve the closed problem; reciprocity; row sums refuted on two triangles, at first order and at the default order 3 |
| C60 | same | uniqueness; scaling of the form |
| C61 | same, getPULMTL | quadratic form of the matrix = work of the fields, positive by connectedness, given Gauss's law; refuted without it on two triangles, at first order and at the default order 3 |
| C62 | same, two meshes | scaling of tables; refuted for firstOrderABC with a computed open problem |
| C63, C64 | same | charges as work, symmetric form, given Gauss's law; refuted without it on triangles (C63 also at order 3) |
| C65 | Main.v: program_options by contract, main, loadFromFile, run | case analysis of the command line; log of events of run |
| C66 | same | every event of the constructor / of run is an export under a known folder |
| C67 | Driver over R | rows of the generalized matrix are determined by tags; uniqueness of solutions; transport of C, inverse and floating systems along the permutation; RenumberCell.v: the same for the in-cell parameters (floating systems solvable together, fields equal by uniqueness, averages as sums over materials) |
| C68 | Driver, Results | simulation between the commands on the two problems of a Driver; the two problems are equal when built |
| C69 | Triangles.v: first order H1, Nedelec and Raviart-Thomas spaces of a mesh, from its vertices | the tables of Triangles.v satisfy what C57 assumes (barycentric coordinates, orientations, connectedness); energies of elements by geometry |
| C70 | Triangles.v on both meshes; Fem.v with corresponding tables at any order (SpecRedraw.v, FemRedraw.v, OrderProofs.v, PropsOrder.v), elements of any order on triangles (Elements.v, ElemOrder.v, PropsHigher.v); in-cell parameters in DrawCell.v, PropsTurn.v | for in-cell parameters: moments and centre of charge turn because fluxes through edges and the edges themselves correspond; multipoles of order n turn by n times the angle; work, flux products and mixed products of a triangle are invariant under similarities and rotation of its vertices; potentials and fluxes correspond through the renumbering (signs of edges included); uniqueness of the fields; counterexample: one triangle beside an open boundary, computed |
| C71 | Triangles.v (Raviart-Thomas elements) | fluxes of edges and fields of a triangle correspond one to one; normal equations of the mass matrix give Pythagoras, hence strict minimality; boundary integrals are fluxes of edges |
| C72 | Triangles.v; Elements.v at any order (SpecUniform.v, ElemExact.v, PropsElemExact.v) | summation by parts over the sides of the triangles: the exact potential has the least energy, so by C69 it is the one found; its displacement field is conservative and has no misfit, so by C71 it is the one found; Driver matrices from C28; example with two layers on four triangles; at higher orders the exact potential is in the space (its linear pieces are interpolated exactly), has the least energy by the divergence theorem on every triangle, and its field and displacement coefficients are the ones found; example at order 3 |
| C73 | Triangles.v | truncating a potential to the range does not raise its energy on a triangle without obtuse angles, and the potential found has the least energy (C69); counterexample computed on five vertices |
| C74 | Triangles.v; Elements.v (PropsHigher.v); Fem.v for any order (PropsOrder.v) | compare the least energies of C69 (C57) on the potential found for the larger permittivities |
| C75 | Triangles.v; Elements.v (SpecExtend.v, RefOrder.v, PropsHigher.v); Fem.v for any order (PropsOrder.v, SpecRedraw.v) | a function of degree k on each triangle is one of degree k' >= k: same values, same derivatives, same energy; the coarse potential, interpolated, is admissible on the fine mesh with the same energy; C69 (C57) on the fine mesh |
| C76 | export events with the named fields (Solver.v writeParaViewFields, writeVisItFields; Driver.v) | event invariant over the command monad (ExportProofs, ExportComplete); uniqueness of unit solutions and floating potentials; computed counterexample for getPULMTLByDomains |
| C77 | Iterative.v: CGSolver::Mult, GSSmoother, the two calls of PCG in Solve, as another instance of the record of field operations | PCG keeps essential values and directions conjugate; energy decreases monotonically; termination after n steps; preconditioner bounded by c and the sparsity w (PcgProofs, IterProofs, IterCalls, IterEnergy) |
| C78 | Iterative.v: iterated_d, iterated_phi | error bounds of PCG for the mass matrix, linearity of projection and flux, Cauchy-Schwarz (IterFlux) |
| C79 | Iterative.v: discretize_pcg in place of discretize in every solver of the Driver | charges of the unit problems (C78), linearity of the symmetrisation, perturbation of the charge-neutral quotient, M - L = M (A - B) L for inverses and injectivity near an invertible matrix (IterMatrix); explicit constants of the open and closed chains (ChainIter, ChainIterClosed; FileChain: the closed one as a file lists it) |
| C80 | Driver.v: getInCellPotentials and all it calls | both directions by symbolic execution; states left by earlier steps agree up to the current fields (same_driver) |
| C81 | Lifetime.v: a heap of addresses; constructor, destructor and members of ElectrostaticSolver as sequences of new, delete and accesses; programs; the operations of a Driver | SpecLife.v: rules on programs alone; a small program logic with exact ownership; invariant: the live addresses are those owned by the objects in scope plus what failed constructors left |
| C82 | Driver.v, Solver.v, Domain.v, Parser.v, Main.v (outcome Undef) | SpecSafe.v; SafeProofs.v: exact outcome of the constructor; SafeCalls.v: a logic of calls with the invariant that all fields have the sizes of their spaces, for any arithmetic; SafeMain.v: domains, reader and executable |
| C83 | Driver.v: every method, the files written as events | SpecQuiet.v, QuietProofs.v: simulation of two Drivers whose options are related, parametrised by the relation between the files written |
| C84 | Driver.v and Results.v at the binary64 instance of Num | error bounds of single operations from Flocq, of sums by induction, of quotients by estimates in R; PI by Machin's formula |
| C85 | Elements.v: the tables of Fem.v for elements of any order on a mesh of triangles, with the numbering and orientation of the degrees of freedom on sides; RefElements.v: Lagrange and Nedelec functions of the orders 1 to 3 | what C57 assumes is proved from conditions on the reference triangle: spread of local coefficients, orientation of sides, Jacobians; the conditions for the orders 1 to 3 by polynomial identities; open boundaries add 1/2 integral of abc phi^2 (PropsElemOpen.v) |
| C86 | Lookup.v: the templates for all three kinds; Materials.v: buildNameToAttrMap, removeMaterialsNotInList, isDomainMaterial and the instances the Driver uses (proved equal to those of Lookup.v) | induction over the vectors; the last assignment to a key of a std::map wins |
| C87 | Solver.v, Fem.v, Triangles.v, Elements.v as for C75 and C85; SpecBest.v: energy of an error and best approximation. | Galerkin orthogonality: all potentials with the values of the conductors do the same work against the one found (found_work), so the energy of the difference is the difference of the energies; the minimum of C85/C69 then orders the errors. |
| C88 | Main.v (the program), Driver.v, Parser.v, Results.v, with the elements of Elements.v for the plates; SpecEnds.v: how an outcome ends a program. | The program is unfolded once to loadInput, the constructor and run; the export folder is irrelevant to the reply (MainProofs); then C80, C61, C72 and C42 are put together; with PCG (Iterative.v), C79. |

## 4. Trusted base

* Coq 8.16.1 kernel (with `vm_compute`, primitive 63 bit integers and primitive floats).
* The correspondence between the C++ text and the Gallina definitions (by reading; every
  definition cites the lines it models and the simplifications made).
* The contracts of the third party code (section 1).
* Axioms: reported by `Print Assumptions` under every theorem, listed in section 6 and, theorem
  by theorem, in `AXIOMS.md` (generated by `tools/axioms.py`).

No axiom, functor, module type, plugin or disabled check is used; no proof is admitted.

## 5. Files: what is modelled and what is not

Model (each definition cites the lines of /repo it models):

| file | models |
|------|--------|
| Prelude, StdMap, Json | outcomes, `Num`, ordered containers, in-memory JSON (meta-language and third party) |
| Materials | Materials.h/.cpp: materials by type, ids from names, removal of absent materials |
| Graph | DirectedGraph.h/.cpp, all of it (Boost by contract) |
| ModelM | Model.h/.cpp: constructor, openness, areas, bounding boxes; the mesh as lists of elements with vertices, attributes, areas |
| Parser | Parser.h/.cpp, SolverOptions.h, DriverOptions, path handling |
| Domain | Domain.h/.cpp, all of it, with the mutation of the global mesh by buildModelForDomain explicit |
| Matrix | the operations of mfem::DenseMatrix used; exact Gaussian elimination for `Invert`/LU |
| Multipole | multipolarExpansion.h, momentComponent, firstOrderABC (over R) |
| Solver | ElectrostaticSolver.h/.cpp as a state machine: markers, projections, Solve, setters, charges, moments, averages, energy, getSolution/setSolution |
| Fem | the bilinear forms of ElectrostaticSolver and FES.h spaces as tables of basis functions at quadrature points; FormLinearSystem; exact solve |
| Triangles | FES.h spaces (H1, Nedelec, Raviart-Thomas) of order 1 on meshes of triangles: values at any quadrature points, dof numbering, orientations |
| Elements, RefElements | the same spaces at any order on triangles, from a reference element; Lagrange and Nedelec reference elements of the orders 1 to 3 |
| Iterative | the linear solvers behind Solve: mfem::PCG (CGSolver::Mult), GSSmoother, from the MFEM 4 sources as remembered (not in /repo), dense matrices |
| Main | pulmtln.cpp: options, loadFromFile, setExportFolder, run, exit status (what is printed is not) |
| Results | Results.h/.cpp: JSON, equality, box averages, on-box parameters |
| Lifetime | who owns what: FES, coefficients and grid functions behind the raw pointers of ElectrostaticSolver, copies and destructors |
| Driver | Driver.h/.cpp: constructor, all getters, run, export events |

Specifications: the `Spec*.v` files (vocabulary of the statements; no model helper is used where
the English claim does not name it). Statements: `Props*.v`, with a concrete case (`Example`)
beside each theorem. Proofs: the other files. `Toy.v`, `FemToy.v`, `Kite.v`,
`Hexagon.v`, `Bars.v`, `Sail.v`, `Plates.v`, `Spike.v`, `Mirror.v`: the small problems used in the
concrete cases; `RationalMesh.v`, `RationalModel.v`, `RationalElem.v`, `Transfer.v`, `ElemTransfer.v`,
`Certificate.v`, `FastCert.v`: how a solution computed over the rationals is carried to the reals.

Not modelled:

* Text level parsing of JSON and gmsh files, and printing of doubles (values are modelled in
  memory; C42 states a round trip through a text under the contract that finite doubles are
  printed exactly, as nlohmann does).
* The file formats of ParaView and VisIt exports (an export is a name with the coefficient vectors of
  its named fields), GLVis exports, and what the program prints.
* Geometry inside MFEM, except elements on straight triangles (Triangles.v for order 1, Elements.v for any
  order; the conditions on the reference element are proved for the orders 1 to 3 in RefProofs.v, with any quadrature rules of
  sufficient degree): for curved triangles and other shapes the values of basis functions and quadrature rules are inputs (tables);
  properties that need facts about them state them as hypotheses (`tables_ok`, `constants_ok`,
  `connected_mesh`, `gauss`, `same_quadrature`, `rescaled`), shown to be met by a concrete case.
* The iterative solver is taken as exact in C57-C75 (Fem.v); C77 and C78 model it as it is
  (Iterative.v: mfem::PCG with GSSmoother, 500 iterations) and bound the difference. The theorems
  up to C56 hold whatever it returns unless they say otherwise.
* Rounding, except where a theorem is stated for IEEE doubles or for any arithmetic
  (C22, C23, C26, C31, C44, C49, C51, C84 and all theorems polymorphic in `T`).
* Termination and memory exhaustion.

## 6. Axioms

The theorems fall into four groups (complete lists in `AXIOMS.md`):

* closed under the global context (no axiom at all);
* theorems over `R`: the axioms of the standard library's reals
  (`ClassicalDedekindReals.sig_forall_dec`, `ClassicalDedekindReals.sig_not_dec`,
  `FunctionalExtensionality.functional_extensionality_dep`), and `Classical_Prop.classic` where
  the analysis library needs it;
* theorems over IEEE doubles: the primitive float operations and their specification
  (`FloatAxioms`) and primitive integers of the standard library;
* nothing else: no axiom of this development or of another library.

## 7. The project's tests on the model

`TestSuite.v` runs the tests of /repo/test that need no field solution (DirectedGraphTest,
ResultsTest, ParserTest, ModelTest, DomainTest, getCFromGeneralizedC) on the model, with the meshes
and input files of /repo/testData translated by `tools/mkdata.py` (`TestData.v`). They check the
fidelity of the model, not the properties.

## 8. Seeded wrong programs

`seeded/mutants.py` holds the edits, `tools/mutate.py` runs them in a scratch copy and reports
the theorems that are no longer proved; results in `seeded/LOG.jsonl`.
