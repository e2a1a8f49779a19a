d("C96", "PointLoads: assembly passes over system vectors, library answers as an oracle record", "induction over the loads; witnesses")
d("C97", "PointLoads: arc-length pass", "sum rule for derivatives over the assembled vectors")
d("C98", "PointLoads: external energy", "virtual work identity by induction; witness for bars")
d("C99", "PointLoads: set-up of the load points", "case analysis of the library answers, induction over the loads; witness")
d("C100", "BouFuncs: the two function members of the integrand as state, boundaries visited in any sequence", "induction over the visited boundaries; witnesses")
d("C101", "BouFuncs: property lists", "induction over the properties with the first code as invariant; witnesses")
d("C102", "BouFuncs: the pressure list as state", "induction over the properties")
d("C103", "ContactInput: numbering map as association list", "invariant (injective, contiguous range) by induction over nodes and elements")
d("C104", "ContactInput: tags of a body folded into its record", "induction over the tags; witnesses for the sequence dependence")
d("C105", "ReturnMap: matrix of the local problem, stored derivative, tangent in principal axes, rotation", "implicit differentiation of the local problem along any solution path; rate of the coaxiality relation; limit for equal stretches")
d("C106", "Plastic: mean stress, triaxiality, Lode parameter", "order and field reasoning; witness for in-plane tensors")
d("C107", "Continuum: axisymmetric B-matrix and deformation gradient as loop nests of writes", "the writes of the nest are disjoint; sums over nodes; witness family on the axis")
d("C108", "Superelement: file names as character lists", "case analysis on the last dot; injectivity of appending; witness families")
d("C109", "Superelement: FE models as lists of patches, the material held by each integrand as state, blocks written in sequence", "induction over superelements, patches and rows; witness with two models")
d("C110", "Superelement: tags of the blocks scanned in sequence; topology sets resolved by an oracle", "induction over tags, blocks and sets; witness families")
d("C111", "BarInput: attributes as options; the kind of integrand object kept apart from the tag", "case analysis of the attributes; witness families")
d("C112", "BarInput: lines as character lists, strtok as removal of empty fields", "split inverts joining (induction over the fields); induction over the lines for the table; witnesses")
d("C113", "MxElement: integration points as records, projection with a given inverse mode matrix, residual as B-matrix product", "curves of deformations with replaced volume; the projection is self-adjoint; virtual work summed over the points")
d("C114", "MxElement: geometric stiffness and the 7x7 projected tangent added to a bounds-checked matrix", "derivative of the virtual work along a path; pointwise identity between rates and the two stiffness terms; hoop compression as the exact remainder")
d("C115", "Analytic: L-shape stresses", "polar chain rule; Machin-type series for pi and Taylor enclosures of sine and cosine")
d("C116", "Analytic: stress fields", "explicit displacement fields and their derivatives")
d("C117", "NlElement: kinematics, push forward of the gradients, residual; the test for zero strains as a parameter", "virtual work along the path of deformations, summed over the points; witness: ring expanded without in-plane strain")
d("C118", "NlElement: material and geometric stiffness", "derivative of the virtual work along a path; hoop compression as the exact remainder; uniqueness of derivatives for the witnesses (rotated triangle, compressed ring)")
d("C119", "NlElement: Green strain, nonlinear strain-displacement matrix", "derivative of the Green strain along a path")
d("C120", "NlElement: sampling pass, extrapolation, tangent entries in the gradients, rank-one volume term", "path of the modified deformation; the shear stress swapped in one entry as the exact remainder in space; witnesses")
d("C121", "BeamElm: evalInt and finalizeElement over slot numbers from Modes; the tolerance of Vec3::isZero is a parameter", "virtual work of the transformed vectors; congruence of the matrices; rigid motions in beam axes; iff characterisation of the accepted elements; witnesses (stretched beam, eccentric beam, rotated beam with offset centre of gravity)")
d("C122", "LinMaterial: push-forward of stress and of the constitutive matrix with bounds-checked deformation entries; strains as stored by the element", "the matrix T pulls strains back and pushes stresses forward; derivative of the Green strain along a path; combined with C117 and C118; witnesses (expanded ring, F-bar at unit volume, mixed element)")
d("C123", "Restart: both drivers as step functions over parameters, solution, material points (History) and next save time; TimeStep, solvers and restart file are functions (oracles); failing output calls, mesh adaptation and element activation left out", "simulation relation between states that differ in the save time; induction on the steps; witnesses (unloaded plastic bar, last step, accelerations of a dissipative integration)")
d("C124", "Restart: the writing of the restart state in both drivers", "case analysis of one step from any state; witness with two intervals")
d("C125", "TextInput: sections and lines as words; codes, property sets, pressure fields and the signed-char face index", "invariant of the parser relating state and lines read; permutation of the loads; witnesses (two PRESSURE sections, code 1, face 257, short line)")
d("C126", "TextInput: material lines, initMaterial, and the assembly over properties", "same invariant; permutation of (patch, material) pairs; witnesses")
d("C127", "PlasticInput: the tag as attributes, children and text; parameter positions; constructor and yield function of Plastic", "index lemmas for assignments into lists of any length, then the laws by name; witnesses (text, E with Smod)")
d("C128", "Threads: an evaluation as its sequence of accesses to members of the material object, an execution as any interleaving; accesses are atomic, and the reads of one group of statements are one access", "induction over the interleaving with the remaining accesses of every thread; commutation of evaluations at different integration points; witnesses (overlapping evaluations, stiffness function not positive, Poisson's ratio function of a hyperelastic material)")
d("C129", "ResultPoints: sweeps over the array of result points, on History; the law of the point is a parameter", "every entry of the array follows its own sequence of deformations; combined with the history of integration points (C13); witnesses (results saved at every second step, grid and result points in turn)")
d("C130", "Loads: entries of the force array and of the nodal vector as sums over boundary points; stresses at the points are given", "exchange of sums over nodes and points; isoparametric positions for the moment; witnesses (strains wanted, axisymmetric ring)")
d("C131", "Loads: contributions of interior and boundary points to load vector, total load and energy; Vec3::isZero is a parameter; entries addressed by node and direction", "partition of unity and exchange of sums; case analysis of haveLoads; witnesses (axisymmetric traction, density zero at the origin, load below the tolerance)")
d("C132", "StressOut: rotation, equivalent stress and sequence of the result columns; principal values by an oracle", "invariants of tensors under orthonormal transformations; witnesses (principal stresses not wanted; exact stresses)")
d("C133", "MatInput: the tag as attributes and children; the two lambdas with their captured variable; function parsers are oracles", "induction over the children with distinct names; witness family with two functions")
d("C134", "ThreeField: one integration point of evalIntMx on the kinematics, geometric stiffness and kernels of NlElement and Mixed; sum over the points", "per-point closed forms of the seven arrays; the tangent identity of the mixed element with independent volume rate; derivatives of paths; witnesses (widened ring: no in-plane strain; compressed ring: hoop compression)")
d("C135", "AnaInput: sequence of material and solution items as a state machine; attributes and words by oracles; missing words and null materials are UB; stresses from Analytic", "invariants over the remaining items; case analysis of the solutions; witnesses (solution before the material; line with a missing word; plate solution before the material)")

d("C136", "FdInput: sections and tags as a state machine over the table of materials, the coded properties and the current material; the law chosen by formulation and version; evaluate and the stress measure of each element; hyperelastic and plastic stresses are arguments", "invariant over the blocks (order and codes); stress identities of LinMaterial; witnesses (material within <elasticity>, no material, version in total Lagrangian, two materials without code)")

d("C137", "LinMain: the loop over the words with its restart after the input file is read; library options and file tests are parameters; file contents as the elements the pre-parser looks at", "one lemma per option on the rest of the line, induction over the options; witnesses (unknown option first; file after an option with optional values; lists read twice)")
d("C138", "LinMain: the branches of main after the command line, as the list of analyses performed", "case analysis over all combinations; witnesses (data check or condensation with eigenvalue analysis)")

d("C139", "NormPrint: headings with the entries printed under them, out-of-range entries as UB; totals over points from Norms; final operation of the norm assembly, truncation of printed values and the index of section forces are parameters", "order of the entries from C31; induction over the section forces; relation between headings and quantities; witnesses (stress-free body in a total Lagrangian analysis, plate of version 0)")

d("C140", "Reread: the elements of the input file as a state machine over the members of the model; clearProperties; any number of clear-and-read rounds; shells with functions stamped by the reading that made them; the IFEM part of clearing and reading is not modelled", "invariant over the tags of one reading, induction over the refinements; witnesses (direct coupling, contact, no material, thickness function with a code)")
d("C141", "Reread: adaptMesh with the answers of library calls as parameters; patch values injected by lists of unknowns; node weights kept by the driver", "induction over patches and vectors; case analysis of the outcomes; witnesses (two patches, two sections)")

d("C142", "AugLag: active set, effective multipliers, element residual, coupling matrix and multiplier rows as written, on the assembly of Model/Mortar; the system in blocks instead of equation numbers (SAM)", "entries of the assembled system in terms of the mortar matrix by induction over elements; virtual work identity with gaps moved by the displacement; witness with two bodies on one node")
d("C143", "AugLag: as C142, with the element Newton matrix and its assembly; flat master surfaces without rotation", "both states have the same mortar matrix and area, the gap is affine in the motion: equality of the residuals by linear algebra on the entries")

d("C144", "LinElement: evalInt step by step (kinematics, constitutive matrix, the strain test, stiffness, geometric stiffness, mass, forces, thermal and dual loads) on the stored matrices; initElement as a function from the given vectors; the geometric stiffness of axisymmetric solids is excluded", "one lemma per step on the bilinear form or work, then induction over the points; positivity from the Voigt identities of the isotropic law; witnesses (strains below the zero tolerance; outside the extraction domain)")
d("C145", "LinElement: the interface evalInt with the parameters of the point, the sizes across the faces and the supplied functions as arguments", "entries of the triple loop as a bilinear form; witness for the sign at a lower face. What IFEM supplies as functions at an interface is not modelled")

d("C146", "LinSystem: the elements of LinElement in the positions of the static mode, added at the unknowns of their nodes; prescribed unknowns keep an equation with a reaction; the solver is any that satisfies the equations; interpolation functions that add up to one and reproduce coordinates are a hypothesis", "the assembled matrix and vectors as forms on global fields by induction over the elements (entries of the writes), then virtual work with rigid motions, the solution, the other solution and the difference; example: two triangles")
d("C147", "LinSystem: as C146; the integral of the gradient of a node's function stands for its boundary term", "stress of a linear field is constant, its work is the sum over the integrals of the gradients; uniqueness from C146; example: two stretched triangles")
d("C148", "LinNorms: evalSol, evalEps, formCmat, haveLoads and getBodyforce give the data of Norms.evalInt, summed over points and elements; boundary integrals (evalBou) and projected solutions are not included", "inverse constitutive matrix gives the complementary energy, stress of Hooke's law; expansion of the error energy with C146; refuted: dual entries with strain output, gravity with zero density at the origin; example: one triangle with a stress error")
d("C149", "ShellText: the keyword reader as a state machine over the lines (at a keyword, or in a section with the number of lines read), the XML elements as a fold; words as in TextInput; thickness functions and line loads are left out", "induction over lines, sections and groups; the two states side by side with the invariant that the integrand uses the first material; witnesses (two sections, missing line, keyword line read as data, code zero)")

d("C150", "Model/Frame.v assembles the elements of Model/BeamElm.v in mode STATIC into a global matrix and vector with six unknowns in each node; all unknowns are kept and prescribed ones get a reaction.",
  "C150_system: work of the assembled residual and matrix by induction over the members. C150_force and C150_moment_partial follow from rigid motions, C150_energy, C150_reciprocal and C150_unique from symmetry and sign of the energy, C150_step from the zero geometric stiffness at rest. C150_moment_refuted: a member with different eccentricities at its ends has reactions with a moment, as its length and axes are those between the nodes. C150_accepted: when a frame is assembled at all.")

d("C151", "Model/Truss.v adds the bars of Model/Bar.v, evaluated at the displacements of their nodes and reduced to the unknowns of a node, into a global matrix and vector. "
  "The place of the geometric stiffness follows from the mode as in ElasticBase::setMode; the assembly itself (IFEM) is addition at the unknowns of the nodes.",
  "Induction over the bars gives the assembled form and work. The element gradient and tangent of C46 are summed; acceptance in a neighbourhood follows from continuity of the lengths. "
  "Stationarity is shown in both directions. Rigid motions of the current positions do no work against the bars, which gives both balances.")

d("C152", "Model/LoadInput.v: the reader of load elements with optional attributes and their defaults, its loop over the children and over the elements of a file; resolution of points and assembly are those of Model/PointLoads.v.",
  "Induction over children and elements gives the stored loads; with C99 and C96 the load vector is that of the loads as written. C152_dropped_refuted and C152_plane_refuted show what is accepted without effect.")

d("C153", "Model/PlateSys.v runs evalK and formBodyForce of Model/Plate.v over the points of an element and adds the results into a global matrix, load vector and total load with one unknown in each node. "
  "Line loads, edge forces and one-dimensional plates are left out; the assembly itself (IFEM) is addition at the unknowns of the nodes.",
  "The energies of C83/C84 are polarised into forms; induction over points and elements gives the assembled forms. Flat deflections have no curvature, which gives the balances. "
  "Minimum in both directions by varying one unknown, uniqueness from definiteness of the first two forms. C153_laplace_refuted: two solutions with different curvatures.")
d("C154", "Model/LinModes.v: the element of Model/LinElement.v with the matrix positions of Model/Modes.v for VIBRATION and BUCKLING, assembled into two matrices. Spec/LinModes.v: energies of the mesh, eigenpairs at free unknowns, tension, superposition. The eigenvalue solver is IFEM's and not modelled: theorems hold for every pair that solves the equations.",
  "Proofs/LinModes.v: induction over the elements with C144_element for the bilinear forms of both matrices. Props/LinModes.v: work of a mode in admissible fields, symmetry and positivity of the forms, induction over lists of modes. Axisymmetric buckling is left out, as in C144.")
d("C155", "Model/McStatic.v: solveStatic as a state machine over print tolerance, modes, equation systems, attachments and block counter, with a list of events; the simulators (IFEM) are their return values and numbers of blocks.",
  "Proofs/McStatic.v: induction over the simulators gives the events of each phase and the whole list in order; Props/McStatic.v filters it. C155_closed_refuted: a run with failing result output leaves the file open.")
