# Formal model of IFEM-Elasticity: design

## Layout

* `properties.jsonl` - the properties (generated by `tools/gen_properties.py`).
* `rocq/theories/Lib` - small shared definitions (bounded matrices, sums, 3-vectors). No property lives here.
* `rocq/theories/Model` - the model. Only definitions; every definition cites the file and lines of
  `/repo` it transcribes and says where it simplifies.
* `rocq/theories/Spec` - independent specifications (Hooke's law, derivative, equilibrium, signed
  distance, ...), written without the model's helpers.
* `rocq/theories/Proofs` - lemmas, the proofs, and next to them `Example`s showing that the hypotheses
  are met by concrete non-trivial data.
* `rocq/theories/Props` - the property theorems only (`Theorem ... exact lemma.`), each followed by
  `Print Assumptions`.
* `MANIFEST.json` - claims, `seeded/LOG.jsonl` - wrong-program experiments.

## Modelling choices

* **Numeric kernels** (constitutive laws, element matrices, closed-form solutions) are modelled over the
  mathematical reals `R` of the standard library. Rounding is *not* modelled: the theorems say the formulas
  of the code are right, not that double evaluation of them is accurate. NaN/infinity questions are modelled
  separately over the standard library's `SpecFloat` (IEEE-754 binary64 comparison semantics).
* **Matrices and vectors** are 1-based as in IFEM. Where the code sizes a matrix and then writes to it, the
  model's matrix carries its dimensions and an out-of-range access is the distinct outcome `None`/`UB`.
* **Drivers, lookups, tables, histories** are modelled over `nat`/`Z`/`Q`/lists as state machines or
  folds; calls into the IFEM library or the equation solver are oracles (function arguments or an
  arbitrary list of outcomes), so theorems hold for every behaviour of them.
* **Undefined behaviour** (index out of range, unsigned wrap used as index, bad static cast) is a distinct
  outcome.
* The IFEM base library (Tensor, SymmTensor, TimeStep, NonLinSIM, SAM, ...) is not part of this repository.
  What is assumed about it is listed under "Trusted base".

## When the code violates a property

If the full statement is false of the faithful model we prove `Cxx_..._refuted` (an explicit witness) and, in
addition, the strongest restriction that does hold as `Cxx_..._partial`. These are findings; they are
summarised in the section "Findings".

## Per-property plan

"Modelled as" names the file under `rocq/theories/Model`; the theorems of each property and remarks on what is
missing are in `MANIFEST.json`. Status `partial` means that the statement is false of the code in general (then
there is a `_refuted` theorem with a witness, see "Findings") or proved under the restriction named in its note.

| Id | Property | Modelled as | Proof | Status |
|----|----|----|----|----|
| C01 | Isotropic elastic stiffness is symmetric and positive definite | LinIsotropic: constitutive matrix of all five modes on bounded matrices | entrywise evaluation, completing squares | proved |
| C02 | The inverse constitutive matrix is the inverse | LinIsotropic: inverse matrix | field identities entry by entry | proved |
| C03 | Stresses obey Hooke's law of the 3D solid in every mode | LinIsotropic against Spec/Hooke (3D law in tensor form) | condensation of the 3D law, field | proved |
| C04 | Inadmissible Poisson's ratios are rejected | NuGuard: the guard over binary64 (`spec_float`) | case analysis of IEEE comparison | partial |
| C05 | All stiffness queries of one material agree | LinIsotropic: constant, field, function and ageing stiffness look-ups | case analysis; witness | partial |
| C06 | Free thermal expansion causes no stress and constrained expansion gives the 3D stress | Thermal: stress recovery with temperature | comparison with the 3D thermoelastic law; witness | partial |
| C07 | Volumetric moduli are the derivatives of the volumetric energy | NeoHooke: volumetric energies | `is_derive` | partial |
| C08 | Hyperelastic stresses are objective, symmetric and vanish in the reference state | NeoHooke: stress and tangent on 3x3 tensors | tensor algebra, rotation invariance | partial |
| C09 | Hyperelastic parameters survive repeated set-up | NeoHooke: parameter set-up as state transformer | induction over set-ups; witness | partial |
| C10 | Elastic constants convert consistently between (E,nu) and (K,G) | Plastic, NeoHooke: parameter conversion | field; witness | partial |
| C11 | Hardening slopes are the derivatives of the yield stress | Plastic: yfunc branch by branch | derivatives | partial |
| C12 | Re-evaluating an increment does not accumulate history | History: plastic point as state machine | invariant over event sequences | proved |
| C13 | Only converged increments become history | History: commit rule | invariant; witness | partial |
| C14 | The accumulated strain energy is path independent for a linear law | Plastic: energy integral fold | telescoping induction | proved |
| C15 | Material input of any length is safe to evaluate | Plastic: parameter lists with bounds checked access | list bounds; witness | partial |
| C16 | A stress state outside the yield surface is seen as plastic by every yield criterion | Plastic: yield criteria and trial check | case analysis; witness | partial |
| C17 | Green strain vanishes under rigid rotation and B is its derivative | Continuum: kinematics for any node list | bilinear algebra | proved |
| C18 | The two ways of forming internal forces agree | Continuum: the two internal force forms | sums over nodes | proved |
| C19 | The tensorial tangent equals B^T C B | Continuum: Fortran stiffness kernels | entrywise; witness | partial |
| C20 | The F-bar spatial tangent is C plus the initial-stress term and is symmetric | Mixed: F-bar A-matrices | entrywise; witness | partial |
| C21 | Volume-modified deformation gradients have the projected volume change | Mixed: volume-modified deformation gradients | determinant identities | proved |
| C22 | F-bar element data accept exactly perfect sampling grids | Mixed: sampling grid | integer roots | proved |
| C23 | The mixed three-field Newton matrix and residual use one consistent DOF map | Mixed: DOF map | index arithmetic, bijection | proved |
| C24 | Follower tractions are pulled back with Nanson's formula | Continuum: traction pull-back | cofactor algebra (Nanson) | proved |
| C25 | Load gradients go to the load-gradient vector | Continuum: load and load-gradient writes | frame conditions; witness | partial |
| C26 | Geometric stiffness is linear in the stress | Continuum: geometric stiffness | linearity; witness | partial |
| C27 | Consistent mass and nodal loads carry the total mass and total load | Continuum: mass and nodal loads | sums with partition of unity | partial |
| C28 | Element matrices and vectors requested by a solution mode exist | Modes: slot tables and mode sequences | case analysis over all modes, induction over call sequences | partial |
| C29 | Buffered element matrices reproduce the assembled ones | Modes: element matrix buffers | induction over visit sequences | partial |
| C30 | Result labels describe the values in their column | Labels: columns and labels as functions of the options | index arithmetic; witnesses | partial |
| C31 | Norm labels describe the integrated norm quantities | Norms: accumulated entries and their names | index arithmetic; witnesses | partial |
| C32 | Extreme-value reporting is schedule independent | Labels: maximum tables as folds | permutation invariance; witness | partial |
| C33 | Solution component names stay within the component set | Labels: component names | case analysis; witness | partial |
| C34 | Result dumps follow the requested save interval | Driver: save logic | induction over steps | partial |
| C35 | Step cut-back restarts from the last converged state | Driver: cut-back loop with oracle outcomes | trace invariants | proved |
| C36 | Every exit status identifies its cause | Driver: statuses of both drivers | case analysis per step, induction | partial |
| C37 | Arc-length control accepts only finite, converged states on the constraint | ArcLength: convergence test over `spec_float`, updates over R | case analysis, algebra | partial |
| C38 | Rigid-body gaps are signed distances with unit normals | Rigid: spheres, cylinders | algebra of distances | proved |
| C39 | Contact forces on a rigid plane act at the projection of the contact point | Rigid: planes and lines | algebra; witness | partial |
| C40 | Contact residual and tangent are self-equilibrated and translation invariant | Mortar: residual and tangent for any node lists | sums | partial |
| C41 | The active contact set is a function of the current state | Mortar: active set | case analysis, permutation invariance; witness | partial |
| C42 | The beam stiffness is symmetric, positive semi-definite and free of rigid-body strain energy | Beam: stiffness with eccentricities | sum of squares, congruence | partial |
| C43 | The beam geometric stiffness equilibrates the axial force | Beam: geometric stiffness | integrals | proved |
| C44 | The beam mass matrix has the rigid-body inertia of the beam | Beam: mass | integrals, congruence | proved |
| C45 | Beam section input gives geometrically valid properties | Section: section input | area integrals (Coquelicot) | partial |
| C46 | Bar internal forces and tangent derive from one strain energy | Bar: all strain measures | `is_derive` of the energy | partial |
| C47 | Bar mass does not couple directions | Bar: mass | entrywise; witness | partial |
| C48 | Cable strain and curvature derivatives are exact | Cable: strain and curvature | `is_derive` | partial |
| C49 | End moments on cables are pure couples and their load stiffness is exact | Cable: end moments | algebra; witness | partial |
| C50 | The plate formulations give the plate bending energy | Plate: three versions | through-thickness integral | proved |
| C51 | Rigid motions of a shell cause no strain | Shell: membrane and bending strains | sums over nodes | proved |
| C52 | Recovered shell moments agree with the moments used for equilibrium | Shell: stress recovery | algebra; witnesses | partial |
| C53 | The nonlinear shell tangent is the derivative of its strains | Shell: nonlinear forces and tangent | `is_derive` | proved |
| C54 | Line loads are applied exactly once | LineLoad: element border checks | counting; witness | partial |
| C55 | Analytical stress fields are in equilibrium and satisfy their boundary conditions | Analytic: stress fields | partial derivatives | proved |
| C56 | Plate reference solutions satisfy the plate equations | Analytic: plate series and circular plate | term-wise derivatives; witnesses | partial |
| C57 | Command-line formulation options are order independent | Options: argument loops as folds | induction, permutations; witnesses | partial |
| C58 | Local coordinate systems are orthonormal and right-handed | LocalSys | vector algebra; witness | partial |
| C59 | Texture-based material lookup is total and well-defined | Texture: interval map | ordered-map invariants; witnesses | partial |
| C60 | Boundary reactions are those of the requested boundary | Boundary: section forces, total reaction | sums over nodes with multiplicity; witnesses | partial |
| C61 | The reaction reference point is independent of node order | Boundary: reference point | fold with minimum; witness | partial |
| C62 | Material and section look-up never reads an empty table | Tables: material look-up | index arithmetic with unsigned wrap; witness | partial |
| C63 | Rigid couplings preserve rigid motion | Couplings: reading and creation of general couplings; the equations of rigid couplings are made in IFEM and not expressible here | ordered-map invariant; rigid motion algebra; witness | partial |
| C64 | Visualisation dumps are numbered uniquely | Dumps: saveStep with truncating division | induction over steps; witnesses | partial |
| C65 | Graded beam knots are valid | Knots: the two loops over Q with fuel | loop invariants, parity argument | proved |
| C66 | Modal simulations return to the full equation system after every step | Modal: active system as two-valued state, all uses recorded as events | induction over iterations and steps | proved |
| C67 | Beam elements interpret their element data as created | Beam: element data kinds per mode | case analysis over mode sequences; witness | partial |
| C68 | Hyperelastic stress and tangent derive from the stored energy | NeoHooke | `is_derive` along arbitrary directions | partial |
| C69 | Hyperelastic evaluation stays inside its matrices | NeoHooke on bounded matrices | bounds; witness | partial |
| C70 | Yield-function derivatives are exact | Plastic: yield function gradients | `is_derive` | proved |
| C71 | The return mapping uses a true Newton correction | ReturnMap: local Newton system | derivatives; witnesses | partial |
| C72 | The plastic tangent is rotated energy-consistently | ReturnMap: tangent rotation | index sums | proved |
| C73 | The reported strain energy of a plastic material depends only on the state for an elastic law | Plastic: reported energy | algebra; witness | partial |
| C74 | Axisymmetric total Lagrangian strain includes the large-displacement hoop strain | Continuum: axisymmetric total Lagrangian | algebra; witness | partial |
| C75 | The three-field element's coupling blocks are the exact linearisation of its residuals | Mixed: three-field residuals | `is_derive`; witness | partial |
| C76 | The mixed-form constitutive matrix is the deviatoric/volumetric projection of the tangent | Mixed: extended constitutive matrix | entrywise | proved |
| C77 | The mixed stiffness kernels equal B^T D B with the extended strain operator | Mixed: Fortran kernels | entrywise, node lists | proved |
| C78 | External energy of the updated Lagrangian norm is the work of the tractions along the load history | Norms: external energy | telescoping induction | proved |
| C79 | Bending about a local axis uses the section's stiffness about that axis | Section and Beam: axes of section and element | energy identity; witness | partial |
| C80 | Recovered cable forces do not depend on the parametrisation | Cable: recovery | scaling algebra; witness | partial |
| C81 | Bars with fewer than three unknowns per node keep each node's components | Bar: reductions | index arithmetic | proved |
| C82 | Recovered plate moments and shear forces are those of the bent plate | Plate: recovery | integrals, derivatives | proved |
| C83 | Distributed plate and shell loads and masses have the right resultant | Plate/Shell: loads and masses | sums | proved |
| C84 | The one-dimensional plate has the same rigidity in all formulations | Plate: one dimension | algebra; witness | partial |
| C85 | The shell energy is that of the isotropic shell on any parametrisation | Shell: energy on any parametrisation | metric tensor algebra | proved |
| C86 | Plate and flat shell report the same moments | Plate and Shell recovery | algebra; witness | partial |
| C87 | The heated-pipe reference solution satisfies thermoelasticity | Analytic: heated pipe | derivatives; witness | partial |
| C88 | Shell thickness functions apply to the patches they are assigned to | Tables: shell thickness | map invariants; witnesses | partial |
| C89 | Projected results have storage whenever they are accessed | Programs: storage per program | exact characterisation over step lists; witnesses | partial |
| C90 | A failing simulation gives a non-zero exit code | Programs: stage lists and exit codes | case analysis, range of driver statuses; witnesses | partial |
| C91 | Result files are named after the input file | FileNames: C-string operations with buffer capacity | induction over extensions; witnesses | partial |
| C92 | Everything allocated by the linear program is released once | Programs: captured pointers | case analysis; witness | partial |
| C93 | Expanding nodal vectors keeps the nodal values | Expand: in-place loops on index maps | loop invariants with the aliasing made explicit; witness | partial |
| C94 | The adaptive option is honoured by all quasi-static solvers | Programs: constructor arguments | case analysis; witness | partial |
| C95 | Restart output never overwrites an existing restart file | FileNames: search for a free name with fuel | pigeonhole; witnesses | partial |
| C96 | Every point load acts once, and only where loads are needed | PointLoads: assembly passes over system vectors, library answers as an oracle record | induction over the loads; witnesses | partial |
| C97 | The point load gradient is the derivative of the point loads | PointLoads: arc-length pass | sum rule for derivatives over the assembled vectors | proved |
| C98 | The external energy contains the work of the point loads | PointLoads: external energy | virtual work identity by induction; witness for bars | partial |
| C99 | Load points are resolved when the model is set up | PointLoads: set-up of the load points | case analysis of the library answers, induction over the loads; witness | partial |
| C100 | Every loaded boundary gets the traction specified for it | BouFuncs: the two function members of the integrand as state, boundaries visited in any sequence | induction over the visited boundaries; witnesses | partial |
| C101 | All boundary conditions taken from the analytical solution are imposed | BouFuncs: property lists | induction over the properties with the first code as invariant; witnesses | partial |
| C102 | Pressures act on the patches they are assigned to | BouFuncs: the pressure list as state | induction over the properties | proved |
| C103 | Every slave boundary node has exactly one contact multiplier of its own | ContactInput: numbering map as association list | invariant (injective, contiguous range) by induction over nodes and elements | proved |
| C104 | A rigid contact body is set up as specified, independently of the sequence of its specification | ContactInput: tags of a body folded into its record | induction over the tags; witnesses for the sequence dependence | partial |
| C105 | The plastic tangent is the derivative of the stress | ReturnMap: matrix of the local problem, stored derivative, tangent in principal axes, rotation | implicit differentiation of the local problem along any solution path; rate of the coaxiality relation; limit for equal stretches | proved |
| C106 | Reported mean stress, triaxiality and Lode parameter have their defined meaning | Plastic: mean stress, triaxiality, Lode parameter | order and field reasoning; witness for in-plane tensors | partial |
| C107 | Axisymmetric strains and stretches agree, on the axis too | Continuum: axisymmetric B-matrix and deformation gradient as loop nests of writes | the writes of the nest are disjoint; sums over nodes; witness family on the axis | partial |
| C108 | A condensed superelement has its own superelement and recovery files | Superelement: file names as character lists | case analysis on the last dot; injectivity of appending; witness families | partial |
| C109 | Stresses in superelements are evaluated with the model and materials of the superelement | Superelement: FE models as lists of patches, the material held by each integrand as state, blocks written in sequence | induction over superelements, patches and rows; witness with two models | partial |
| C110 | The requested superelement is condensed to the nodes of all its retained sets | Superelement: tags of the blocks scanned in sequence; topology sets resolved by an oracle | induction over tags, blocks and sets; witness families | partial |
| C111 | Bars, cables and beams get the stiffness and mass of the section and material given | BarInput: attributes as options; the kind of integrand object kept apart from the tag | case analysis of the attributes; witness families | partial |
| C112 | Section data files are read as comma separated tables | BarInput: lines as character lists, strtok as removal of empty fields | split inverts joining (induction over the fields); induction over the lines for the table; witnesses | partial |
| C113 | Internal forces of the mixed element are the derivative of its strain energy | MxElement: integration points as records, projection with a given inverse mode matrix, residual as B-matrix product | curves of deformations with replaced volume; the projection is self-adjoint; virtual work summed over the points | proved |
| C114 | The stiffness of the mixed element is the derivative of its internal forces | MxElement: geometric stiffness and the 7x7 projected tangent added to a bounds-checked matrix | derivative of the virtual work along a path; pointwise identity between rates and the two stiffness terms; hoop compression as the exact remainder | partial |
| C115 | The L-shape reference solution is in equilibrium with free edges | Analytic: L-shape stresses | polar chain rule; Machin-type series for pi and Taylor enclosures of sine and cosine | proved |
| C116 | Reference stresses are those of a displacement field | Analytic: stress fields | explicit displacement fields and their derivatives | proved |
| C117 | Internal forces of the updated Lagrangian element are the derivative of the strain energy | NlElement: kinematics, push forward of the gradients, residual; the test for zero strains as a parameter | virtual work along the path of deformations, summed over the points; witness: ring expanded without in-plane strain | partial |
| C118 | The stiffness of the updated Lagrangian element is the derivative of its internal forces | NlElement: material and geometric stiffness | derivative of the virtual work along a path; hoop compression as the exact remainder; uniqueness of derivatives for the witnesses (rotated triangle, compressed ring) | partial |
| C119 | Forces and stiffness of the total Lagrangian element are consistent | NlElement: Green strain, nonlinear strain-displacement matrix | derivative of the Green strain along a path | proved |
| C120 | Forces and stiffness of the F-bar element are consistent | NlElement: sampling pass, extrapolation, tangent entries in the gradients, rank-one volume term | path of the modified deformation; the shear stress swapped in one entry as the exact remainder in space; witnesses | partial |
| C121 | The beam element delivers consistent forces, stiffness and mass in every solution mode | BeamElm: evalInt and finalizeElement over slot numbers from Modes; the tolerance of Vec3::isZero is a parameter | virtual work of the transformed vectors; congruence of the matrices; rigid motions in beam axes; iff characterisation of the accepted elements; witnesses (stretched beam, eccentric beam, rotated beam with offset centre of gravity) | partial |
| C122 | A linear elastic material in large deformations is a Saint Venant-Kirchhoff solid | LinMaterial: push-forward of stress and of the constitutive matrix with bounds-checked deformation entries; strains as stored by the element | the matrix T pulls strains back and pushes stresses forward; derivative of the Green strain along a path; combined with C117 and C118; witnesses (expanded ring, F-bar at unit volume, mixed element) | partial |
| C123 | A restarted simulation continues as the interrupted one would have | Restart: both drivers as step functions over parameters, solution, material points (History) and next save time; TimeStep, solvers and restart file are functions (oracles); failing output calls, mesh adaptation and element activation left out | simulation relation between states that differ in the save time; induction on the steps; witnesses (unloaded plastic bar, last step, accelerations of a dissipative integration) | partial |
| C124 | Restart states are available at the requested interval | Restart: the writing of the restart state in both drivers | case analysis of one step from any state; witness with two intervals | partial |
| C125 | Pressures in a text input file act where and as specified | TextInput: sections and lines as words; codes, property sets, pressure fields and the signed-char face index | invariant of the parser relating state and lines read; permutation of the loads; witnesses (two PRESSURE sections, code 1, face 257, short line) | partial |
| C126 | Every patch is integrated once with the material given for it in the text input | TextInput: material lines, initMaterial, and the assembly over properties | same invariant; permutation of (patch, material) pairs; witnesses | partial |
| C127 | A plastic material has the parameters given in its input tag | PlasticInput: the tag as attributes, children and text; parameter positions; constructor and yield function of Plastic | index lemmas for assignments into lists of any length, then the laws by name; witnesses (text, E with Smod) | partial |
| C128 | Evaluations of one material at many points do not disturb each other | Threads: an evaluation as its sequence of accesses to members of the material object, an execution as any interleaving; accesses are atomic, and the reads of one group of statements are one access | induction over the interleaving with the remaining accesses of every thread; commutation of evaluations at different integration points; witnesses (overlapping evaluations, stiffness function not positive, Poisson's ratio function of a hyperelastic material) | partial |
| C129 | Plastic results at a result point follow the deformation history of that point | ResultPoints: sweeps over the array of result points, on History; the law of the point is a parameter | every entry of the array follows its own sequence of deformations; combined with the history of integration points (C13); witnesses (results saved at every second step, grid and result points in turn) | partial |
| C130 | Boundary forces are the resultant of the stresses on the boundary | Loads: entries of the force array and of the nodal vector as sums over boundary points; stresses at the points are given | exchange of sums over nodes and points; isoparametric positions for the moment; witnesses (strains wanted, axisymmetric ring) | partial |
| C131 | Nodal loads, total load and external energy describe the same loads | Loads: contributions of interior and boundary points to load vector, total load and energy; Vec3::isZero is a parameter; entries addressed by node and direction | partition of unity and exchange of sums; case analysis of haveLoads; witnesses (axisymmetric traction, density zero at the origin, load below the tolerance) | partial |
| C132 | Stress results refer to the requested coordinate system | StressOut: rotation, equivalent stress and sequence of the result columns; principal values by an oracle | invariants of tensors under orthonormal transformations; witnesses (principal stresses not wanted; exact stresses) | partial |
| C133 | Each property of a linear-elastic material is the one given in its tag | MatInput: the tag as attributes and children; the two lambdas with their captured variable; function parsers are oracles | induction over the children with distinct names; witness family with two functions | partial |
| C134 | The three-field element derives from one potential | ThreeField: one integration point of evalIntMx on the kinematics, geometric stiffness and kernels of NlElement and Mixed; sum over the points | per-point closed forms of the seven arrays; the tangent identity of the mixed element with independent volume rate; derivatives of paths; witnesses (widened ring: no in-plane strain; compressed ring: hoop compression) | partial |
| C135 | The analytical solution refers to the material and plate of the model | AnaInput: sequence of material and solution items as a state machine; attributes and words by oracles; missing words and null materials are UB; stresses from Analytic | invariants over the remaining items; case analysis of the solutions; witnesses (solution before the material; line with a missing word; plate solution before the material) | partial |
| C136 | The materials of a finite-deformation model give their elements the stresses they describe | FdInput: sections and tags as a state machine over the table of materials, the coded properties and the current material; the law chosen by formulation and version; evaluate and the stress measure of each element; hyperelastic and plastic stresses are arguments | invariant over the blocks (order and codes); stress identities of LinMaterial; witnesses (material within <elasticity>, no material, version in total Lagrangian, two materials without code) | partial |
| C137 | Command-line options have their effect wherever they stand, and override the input file | LinMain: the loop over the words with its restart after the input file is read; library options and file tests are parameters; file contents as the elements the pre-parser looks at | one lemma per option on the rest of the line, induction over the options; witnesses (unknown option first; file after an option with optional values; lists read twice) | partial |
| C138 | The linear program performs the analysis asked for, and no other | LinMain: the branches of main after the command line, as the list of analyses performed | case analysis over all combinations; witnesses (data check or condensation with eigenvalue analysis) | partial |
| C139 | Every printed norm and error estimate is the quantity its heading names | NormPrint: headings with the entries printed under them, out-of-range entries as UB; totals over points from Norms; final operation of the norm assembly, truncation of printed values and the index of section forces are parameters | order of the entries from C31; induction over the section forces; relation between headings and quantities; witnesses (stress-free body in a total Lagrangian analysis, plate of version 0) | partial |
| C140 | Re-reading the input after a mesh refinement gives the model the input describes | Reread: the elements of the input file as a state machine over the members of the model; clearProperties; any number of clear-and-read rounds; shells with functions stamped by the reading that made them; the IFEM part of clearing and reading is not modelled | invariant over the tags of one reading, induction over the refinements; witnesses (direct coupling, contact, no material, thickness function with a code) | partial |
| C141 | A nonlinear analysis continues from the same state after a mesh refinement | Reread: adaptMesh with the answers of library calls as parameters; patch values injected by lists of unknowns; node weights kept by the driver | induction over patches and vectors; case analysis of the outcomes; witnesses (two patches, two sections) | partial |
| C142 | In a converged augmented Lagrange contact analysis the contact conditions hold | AugLag: active set, effective multipliers, element residual, coupling matrix and multiplier rows as written, on the assembly of Model/Mortar; the system in blocks instead of equation numbers (SAM) | entries of the assembled system in terms of the mortar matrix by induction over elements; virtual work identity with gaps moved by the displacement; witness with two bodies on one node | partial |
| C143 | The augmented Lagrange contact matrix is the derivative of the contact equations | AugLag: as C142, with the element Newton matrix and its assembly; flat master surfaces without rotation | both states have the same mortar matrix and area, the gap is affine in the motion: equality of the residuals by linear algebra on the entries | partial |
| C144 | The linear elastic element is the linear elastic problem of the interpolated fields | LinElement: evalInt step by step (kinematics, constitutive matrix, the strain test, stiffness, geometric stiffness, mass, forces, thermal and dual loads) on the stored matrices; initElement as a function from the given vectors; the geometric stiffness of axisymmetric solids is excluded | one lemma per step on the bilinear form or work, then induction over the points; positivity from the Voigt identities of the isotropic law; witnesses (strains below the zero tolerance; outside the extraction domain) | partial |
| C145 | The interface stabilisation adds the penalised jump once per face | LinElement: the interface evalInt with the parameters of the point, the sizes across the faces and the supplied functions as arguments | entries of the triple loop as a bilinear form; witness for the sign at a lower face. What IFEM supplies as functions at an interface is not modelled | partial |
| C146 | In a linear static analysis the reactions balance the loads and the energies agree | LinSystem: the elements of LinElement in the positions of the static mode, added at the unknowns of their nodes; prescribed unknowns keep an equation with a reaction; the solver is any that satisfies the equations; interpolation functions that add up to one and reproduce coordinates are a hypothesis | the assembled matrix and vectors as forms on global fields by induction over the elements (entries of the writes), then virtual work with rigid motions, the solution, the other solution and the difference; example: two triangles | proved |
| C147 | States of constant strain and free thermal expansion are reproduced exactly | LinSystem: as C146; the integral of the gradient of a node's function stands for its boundary term | stress of a linear field is constant, its work is the sum over the integrals of the gradients; uniqueness from C146; example: two stretched triangles | proved |
| C148 | Energy norms of linear analyses are the energies of the mesh, and the error is the smallest possible | LinNorms: evalSol, evalEps, formCmat, haveLoads and getBodyforce give the data of Norms.evalInt, summed over points and elements; boundary integrals (evalBou) and projected solutions are not included | inverse constitutive matrix gives the complementary energy, stress of Hooke's law; expansion of the error energy with C146; refuted: dual entries with strain output, gravity with zero density at the origin; example: one triangle with a stress error | partial |
| C149 | Plates, shells and beams described by keywords are those of the XML description | ShellText: the keyword reader as a state machine over the lines (at a keyword, or in a section with the number of lines read), the XML elements as a fold; words as in TextInput; thickness functions and line loads are left out | induction over lines, sections and groups; the two states side by side with the invariant that the integrand uses the first material; witnesses (two sections, missing line, keyword line read as data, code zero) | partial |
| C150 | Frames of beams: equilibrium of reactions, loads and weight | Model/Frame.v assembles the elements of Model/BeamElm.v in mode STATIC into a global matrix and vector with six unknowns in each node; all unknowns are kept and prescribed ones get a reaction. | C150_system: work of the assembled residual and matrix by induction over the members. C150_force and C150_moment_partial follow from rigid motions, C150_energy, C150_reciprocal and C150_unique from symmetry and sign of the energy, C150_step from the zero geometric stiffness at rest. C150_moment_refuted: a member with different eccentricities at its ends has reactions with a moment, as its length and axes are those between the nodes. C150_accepted: when a frame is assembled at all. | partial |
| C151 | A truss is balanced exactly where its potential energy is stationary | Model/Truss.v adds the bars of Model/Bar.v, evaluated at the displacements of their nodes and reduced to the unknowns of a node, into a global matrix and vector. The place of the geometric stiffness follows from the mode as in ElasticBase::setMode; the assembly itself (IFEM) is addition at the unknowns of the nodes. | Induction over the bars gives the assembled form and work. The element gradient and tangent of C46 are summed; acceptance in a neighbourhood follows from continuity of the lengths. Stationarity is shown in both directions. Rigid motions of the current positions do no work against the bars, which gives both balances. | proved |
| C152 | Every load in the input of bars, cables and beams acts on the model, or the input is refused | Model/LoadInput.v: the reader of load elements with optional attributes and their defaults, its loop over the children and over the elements of a file; resolution of points and assembly are those of Model/PointLoads.v. | Induction over children and elements gives the stored loads; with C99 and C96 the load vector is that of the loads as written. C152_dropped_refuted and C152_plane_refuted show what is accepted without effect. | partial |
| C153 | A thin plate is solved as its bending problem | Model/PlateSys.v runs evalK and formBodyForce of Model/Plate.v over the points of an element and adds the results into a global matrix, load vector and total load with one unknown in each node. Line loads, edge forces and one-dimensional plates are left out; the assembly itself (IFEM) is addition at the unknowns of the nodes. | The energies of C83/C84 are polarised into forms; induction over points and elements gives the assembled forms. Flat deflections have no curvature, which gives the balances. Minimum in both directions by varying one unknown, uniqueness from definiteness of the first two forms. C153_laplace_refuted: two solutions with different curvatures. | partial |
| C154 | Vibration modes and buckling factors of linear solids | Model/LinModes.v: the element of Model/LinElement.v with the matrix positions of Model/Modes.v for VIBRATION and BUCKLING, assembled into two matrices. Spec/LinModes.v: energies of the mesh, eigenpairs at free unknowns, tension, superposition. The eigenvalue solver is IFEM's and not modelled: theorems hold for every pair that solves the equations. | Proofs/LinModes.v: induction over the elements with C144_element for the bilinear forms of both matrices. Props/LinModes.v: work of a mode in admissible fields, symmetry and positivity of the forms, induction over lists of modes. Axisymmetric buckling is left out, as in C144. | proved |
| C155 | A model coupled with beams is solved as one system and shown part by part | Model/McStatic.v: solveStatic as a state machine over print tolerance, modes, equation systems, attachments and block counter, with a list of events; the simulators (IFEM) are their return values and numbers of blocks. | Proofs/McStatic.v: induction over the simulators gives the events of each phase and the whole list in order; Props/McStatic.v filters it. C155_closed_refuted: a run with failing result output leaves the file open. | partial |

## What is modelled and what is not

Modelled (line ranges in the comments of `Model/*.v`):

* Elasticity: LinIsotropic, thermal stress recovery, Elasticity (labels, norms, kinematics, loads, mass, extreme
  values, maximum tables), LinearElasticity axisymmetric handling, LocalSystems, IsotropicTextureMat, material and section tables of
  SIMElasticity, boundary forces and reactions, SIMRigid couplings, SIMElasticityWrap::saveStep, NonlinearDriver,
  ArcLengthDriver, NewmarkDriver.
* FiniteDeformation: NeoHookeMaterial, PlasticMaterial, LinearMaterial kinematics where used, total and updated Lagrangian elements,
  F-bar, ULMX, ULMixed elements and their Fortran kernels, contact (rigid bodies, mortar assembly, active set), NLargs.
* Beam: ElasticBeam, BeamProperty, ElasticBar, ElasticCable. Shell: KirchhoffLoveShell, NLKirchhoffLoveShell, SIMKLShell tables
  and line loads. Linear: KirchhoffLovePlate, AnalyticSolutions, SIMLinElBeamC1::parseXi, SIMLinElSup, modal drivers.
* Programs: argument loop of main_NonLinEl, the run sequence of the three programs as far as needed for C89-C95.

Not modelled: rounding in the numeric kernels; the IFEM library (basis functions, integration loops, SAM assembly, equation
solvers, XML and text parsing beyond what is listed, HDF5 and VTF output); the adaptive
mesh refinement step itself; dual solutions and extraction functions except their names; the tests and cmake files.
The fallback of the cable element for straight configurations is an oracle.

## Trusted base

* Coq 8.16.1 kernel. No axioms of our own, no admitted lemmas, no disabled checks.
* Standard library axioms. `ASSUMPTIONS.md` (generated by `tools/gen_assumptions.py`) lists the output of
  `Print Assumptions` for every property theorem. They are at most `ClassicalDedekindReals.sig_forall_dec`,
  `ClassicalDedekindReals.sig_not_dec`, `FunctionalExtensionality.functional_extensionality_dep` and `Classical_Prop.classic`;
  about a quarter of the theorems (mostly on drivers, tables, parsers and programs) need none.
* Libraries used: standard library; Coquelicot (`is_derive`, `auto_derive`, `is_RInt`), which adds no axioms.
* The transcription of the C++/Fortran text into the model.
* Assumptions on IFEM, which is not part of the repository:
  * Voigt order xx,yy,zz,xy,yz,xz (3D); xx,yy,xy or xx,yy,zz,xy (2D); matrices are 1-based and stored column by column.
  * SymmTensor is zero-initialised; Tensor::inverse returns the determinant and leaves the inverse; SymmTensor::transform(T) is T s T^t.
  * Order of SIM::SolutionMode: INIT, STATIC, ARCLEN, DYNAMIC, VIBRATION, BUCKLING, STIFF_ONLY, MASS_ONLY, RHS_ONLY, INT_FORCES, RECOVERY, NORMS;
    LINEAR = 1, NONLINEAR = 2, TOTAL_LAGRANGE = 3 in the formulation enumeration.
  * TimeStep::hasReached(t) is time + tolerance > t; TimeStep::cutback is an oracle; NonLinSIM::advanceStep copies the solution to the previous one;
    updateConfiguration adds the increment; NewmarkSIM assembles and solves once per iteration and expands once per converged step.
  * Vec3::normalize(tol) divides by the length unless it is at most tol (1e-16 by default); Vec3(a,b) is the cross product; Vec3::isZero is an oracle.
  * SAM assembly adds element blocks to the equations of their nodes; utl::vector::resize keeps old values, resize(n,true) clears.
  * utl::transform(A,T) is T A T^t block by block; element Hessians have columns ,11 ,22 ,12; Vec3*Matrix is a row vector times the matrix.
  * hypot, atan2, log, log10, pow are exact; reaction, boundary node and norm queries are oracles.
  * SIMargsBase::parseArg is an oracle on the dimension ("-2D" sets 2, default 3); parseMaterialSet returns the property code.
  * setPatchMaterial sets the material in the integrand of the simulator it is called on; getTopItemNodes adds the nodes of an item to the list;
    evalSolution on a patch gives as many columns as its tesselation has points; std::sort sorts.
  * Assigning a 3D SymmTensor to one of lower dimension copies the common components; utl::invert returns the inverse; the values of
    utl::Pascal are input; SymmTensor::isZero is an oracle.
  * C strings: strtok and strcat as in the C standard; std::set, std::map ordered by key.

## Findings

Properties that are false of the code, with the theorem giving the witness:

* **C04** Inadmissible Poisson's ratios are rejected. Statement is false of the code: NaN passes the guard (witness). Exact for every other binary64 value. (`C04_nan_refuted`)
* **C05** All stiffness queries of one material agree. Statement is false of the code when the stiffness is given as a field: the queries ignore it. Holds for all other combinations. (`C05_field_refuted`)
* **C06** Free thermal expansion causes no stress and constrained expansion gives the 3D stress. Statement is false of the code in plane strain (in-plane term missing) and in axisymmetric mode with a plane-strain material (E*epsT subtracted twice). Holds in 3D, plane stress and axisymmetric mode with the default material flags. (`C06_plane_strain_refuted`, `C06_axisymmetric_refuted`)
* **C07** Volumetric moduli are the derivatives of the volumetric energy. Volumetric laws 1-3 exact; law 4's first derivative is not the derivative of its energy (witness). (`C07_law4_refuted`)
* **C08** Hyperelastic stresses are objective, symmetric and vanish in the reference state. Objectivity, symmetry and small-strain tangent proved for both versions; stress-free reference fails for volumetric law 4 (witness). (`C08_stress_free_refuted`)
* **C09** Hyperelastic parameters survive repeated set-up. Set-up is idempotent except for the standard version given (K,G), where repeated set-up drifts (witness). (`C09_setups_refuted`)
* **C10** Elastic constants convert consistently between (E,nu) and (K,G). Conversions inverse when the shear modulus exceeds 1/2; smaller shear moduli are mistaken for Poisson's ratio, and the standard hyperelastic version takes K for lambda (witnesses). (`C10_small_shear_modulus_refuted`, `C10_standard_law_refuted`)
* **C11** Hardening slopes are the derivatives of the yield stress. All laws; with a hardening curve the linear term enters the slope but not the yield stress (witness). (`C11_curve_refuted`)
* **C13** Only converged increments become history. Holds when all increments after the first step converge; a diverged increment is committed as history (witness). (`C13_diverged_refuted`)
* **C15** Material input of any length is safe to evaluate. XML input is safe; text input with hardening type 6 and fewer than 13 parameters reads outside the list (witness). (`C15_text_refuted`)
* **C16** A stress state outside the yield surface is seen as plastic by every yield criterion. All criteria except type 3, whose trial check never reports yielding. (`C16_trial_check_refuted`)
* **C19** The tensorial tangent equals B^T C B. 2D general and both isotropic kernels exact. The 3D general kernel exchanges Voigt positions 5 and 6 (exact for tangents invariant under that exchange; witness otherwise), and the 1D branch drops the integration weight (witness). (`C19_general_kernel_3D_refuted`, `C19_weight_1D_refuted`)
* **C20** The F-bar spatial tangent is C plus the initial-stress term and is symmetric. 2D and axisymmetric exact; in 3D 80 of 81 entries exact, entry (9,3) uses sigma_12 instead of sigma_13 (witness). (`C20_space_refuted`)
* **C25** Load gradients go to the load-gradient vector. Total Lagrangian volume and boundary loads satisfy it; the updated Lagrangian element adds the gradient to the wrong vector (witness). (`C25_updated_lagrangian_refuted`)
* **C26** Geometric stiffness is linear in the stress. Linear in the stress for 2D, 3D and axisymmetric tension; a compressive hoop stress is ignored (witness). (`C26_compressive_hoop_refuted`)
* **C27** Consistent mass and nodal loads carry the total mass and total load. Mass and body loads in all modes, tractions in the nonlinear elements and in linear non-axisymmetric ones; the linear axisymmetric total omits the 2*pi*r weight (witness). (`C27_traction_total_axisymmetric_refuted`)
* **C28** Element matrices and vectors requested by a solution mode exist. Refuted as stated: some integrand/mode/parameter combinations write to a matrix or vector the element container does not hold (listed in C28_gaps_refuted), and a parameter set after the mode leaves stale slots. Partial: exact characterisation of the safe combinations over all call sequences, no gap outside the listed ones, and exactly which matrices and vectors linear elasticity forms. (`C28_gaps_refuted`, `C28_late_parameter_refuted`)
* **C29** Buffered element matrices reproduce the assembled ones. Refuted as stated: a buffered STATIC visit, the mass of MASS_ONLY, and a read of an element never stored. Partial: the round trip holds for every visit sequence when both matrix slots are in use. (`C29_static_refuted`, `C29_mass_only_refuted`, `C29_unstored_refuted`)
* **C30** Result labels describe the values in their column. Exact condition proved for 2D/3D continua (iff); refuted where principal values meet internal variables, for strain output in plane stress and in one dimension. Plates, shells and cables fully proved. (`C30_principal_refuted`, `C30_strain_refuted`, `C30_one_dim_refuted`)
* **C31** Norm labels describe the integrated norm quantities. Every entry of the continuum, updated Lagrangian, plate and shell norms is matched with its label, and no name function reads outside its table, except the refuted cases: extraction entries without analytical solution, prefix dropped with several extraction functions, second nodal projection and boundary slots of version-2 plates, own-basis projections on plate boundaries, unsquared moment jump. (`C31_extraction_refuted`, `C31_prefix_refuted`, `C31_plate_second_refuted`, `C31_plate_boundary_refuted`, `C31_plate_own_basis_refuted`, `C31_plate_jump_refuted`)
* **C32** Extreme-value reporting is schedule independent. Maximum of the absolute value proved for any visiting order; refuted for sign/location under ties and for a material registered after the maximum table is sized. (`C32_sign_refuted`, `C32_late_material_refuted`)
* **C33** Solution component names stay within the component set. Base, continuum and mixed names proved; refuted for the axisymmetric third component with prefix and for names without prefix. (`C33_axisymmetric_refuted`, `C33_no_prefix_refuted`)
* **C34** Result dumps follow the requested save interval. Save rule relative to the previous save proved for all step sequences, and exactness for equal steps; refuted as stated: save times drift off the multiples, the last step is lost with a long first interval, and a cut-back leaves a stale output time. (`C34_multiples_drift_refuted`, `C34_last_step_refuted`, `C34_cut_back_time_refuted`)
* **C36** Every exit status identifies its cause. Status zero and nonzero characterised for all outcome sequences (dynamic driver: iff); refuted: status 9 has two causes, failed serialisation gives 0, dynamic statuses are summed and collide. (`C36_status_9_refuted`, `C36_restart_not_written_refuted`, `C36_dynamic_sum_refuted`)
* **C37** Arc-length control accepts only finite, converged states on the constraint. Acceptance, termination, predictor, corrector and bookkeeping proved; refuted: zero first correction accepted with NaN residual, infinite first norm used as reference. Floating point for the convergence test, exact reals for the increments. (`C37_nan_residual_refuted`, `C37_infinite_reference_refuted`)
* **C39** Contact forces on a rigid plane act at the projection of the contact point. The weights sum to one but are attached to the wrong master points and lose their sign: the projection is reproduced exactly on the diagonal p = q >= 0 (3D) and for p >= 0 (2D); refuted elsewhere. (`C39_weights_swapped_refuted`, `C39_line_mirrored_refuted`)
* **C40** Contact residual and tangent are self-equilibrated and translation invariant. Force balance, residual = mortar matrix times gaps, and the assembled spring tangent (symmetric, positive semi-definite, translation invariant) are proved in full; the geometric part of the point tangent has the slave-master sign wrong and resists common translations (refuted). (`C40_geometric_translation_refuted`)
* **C41** The active contact set is a function of the current state. The active set equals the contact condition of the current state except that the first node keeps a stale flag when the first iteration of the first step is re-entered (refuted there). (`C41_stale_flag_refuted`)
* **C42** The beam stiffness is symmetric, positive semi-definite and free of rigid-body strain energy. Stiffness symmetric, non-negative, equal to the Timoshenko energy integral; rigid motions force-free with axes of the eccentric axis (partial). Refuted in general: length and axes are taken from the grid points, so unequal end eccentricities give forces for a rigid rotation. (`C42_rigid_refuted`)
* **C45** Beam section input gives geometrically valid properties. Area integrals of boxes and pipes, positivity, Bredt torsion constant proved. Refuted: second-moment functions give a rotary inertia without the density, the polar function serves both GIt and Ix, and a pipe wall thicker than the diameter is accepted with negative area. (`C45_moment_functions_refuted`, `C45_polar_function_refuted`, `C45_thick_pipe_refuted`)
* **C46** Bar internal forces and tangent derive from one strain energy. Energy gradient, objectivity, exact tangent proved for all strain measures when both parts share a matrix, also for the complete element evaluation. Refuted for a separate geometric matrix: its off-diagonal blocks are taken from the material part. (`C46_geometric_refuted`)
* **C47** Bar mass does not couple directions. Lumped mass and gravity proved. Refuted for the consistent mass, which couples the directions. (`C47_coupling_refuted`)
* **C48** Cable strain and curvature derivatives are exact. Strain, unit normal and curvature gradients exact for every curved configuration and number of nodes; forces are the energy gradient; material part PSD. Refuted for the second derivative of the curvature; the tangent is exact where binormal and normal lie along coordinate axes (_partial). The straight-cable fallback is an oracle. (`C48_second_curvature_refuted`)
* **C49** End moments on cables are pure couples and their load stiffness is exact. Zero resultant and moment in the plane; symmetrised stiffness is the symmetric part. Refuted: at each end two of the four columns of the load stiffness have the wrong sign, and out of plane only part of the moment is applied. (`C49_moment_refuted`, `C49_stiffness_refuted`)
* **C52** Recovered shell moments agree with the moments used for equilibrium. Refuted in two ways: the nonlinear recovery evaluates the reference curvature with the deformed normal, so a rotation recovers moments; and its moment sign exchanges the Top and Bottom stresses. Proved: internal forces, membrane forces, rotation invariance of the internal forces, linear surface stresses. (`C52_rotation_moments_refuted`, `C52_labels_refuted`)
* **C54** Line loads are applied exactly once. Interior lines get the full load; refuted on the patch boundary (one half) and lines off the grid get nothing. Of several line loads in the input only the last is kept. (`C54_two_line_loads_refuted`, `C54_once_refuted`)
* **C56** Plate reference solutions satisfy the plate equations. Series: each pair of harmonics once, derivatives exact, load coefficients are Fourier's, moments are those of the deflection. Refuted: the relative-change test stops the sum early (e.g. centred patch of two thirds of the sides uses one term). Circular plate refuted: log10 instead of ln and a sign make the moments balance no load and disagree with the deflection. (`C56_summation_refuted`, `C56_circular_equilibrium_refuted`, `C56_circular_deflection_refuted`)
* **C57** Command-line formulation options are order independent. Refuted in general: -UL after -MX or -Fbar downgrades the formulation, and <planestrain/> is lost when -2D follows the file name. Proved: the last request counts (command line, and input file where updatedlagrange refines), invariance under permutation without conflicts; file settings are overridden exactly as stated. (`C57_order_refuted`, `C57_dimension_refuted`)
* **C58** Local coordinate systems are orthonormal and right-handed. Refuted on the axis of a cylindrical system (0/0). Proved off the axis: the cylindrical, spherical and Cartesian systems are orthonormal and right-handed. (`C58_axis_refuted`)
* **C59** Texture-based material lookup is total and well-defined. Refuted: overlapping intervals are resolved in map order, not in the listed order, and a point outside all intervals without default material fails. Proved: pixel index in range for all coordinates, intensity is the first channel scaled to 0..1, least matching interval is used, and listing order irrelevant for disjoint intervals. (`C59_first_listed_refuted`, `C59_default_refuted`)
* **C60** Boundary reactions are those of the requested boundary. Refuted: the section index is off by one and the last one is out of range; the total reaction counts a node on two sections twice. Proved: weighted sum over the nodes of the section, and the total for sections without common nodes. (`C60_index_refuted`, `C60_first_refuted`, `C60_total_shared_refuted`)
* **C61** The reaction reference point is independent of node order. Refuted on ties (node order decides). Proved when the closest node is unique and for straight boundaries. (`C61_order_refuted`)
* **C62** Material and section look-up never reads an empty table. Refuted for an empty table (index wraps around). Proved for all non-empty tables, for the shell and the beam drivers. (`C62_empty_refuted`)
* **C63** Rigid couplings preserve rigid motion. The equations of rigid couplings are generated in IFEM, outside the repository, and are not modelled. For the general couplings read from file: constraints proved to be exactly those listed; they reproduce small rigid motions iff the weights sum to one and interpolate the position, which is not checked (refuted). (`C63_rigid_motion_refuted`)
* **C64** Visualisation dumps are numbered uniquely. Proved for positive save increments, with arbitrary write failures; refuted for a zero increment (division by zero) and a negative one (decreasing numbers), which the code does not reject. (`C64_zero_refuted`, `C64_negative_refuted`)
* **C67** Beam elements interpret their element data as created. Exact characterisation of when the cast is defined. Refuted: a static-mode object created after a dynamic one is read as a dynamic object (undefined behaviour). (`C67_axes_refuted`)
* **C68** Hyperelastic stress and tangent derive from the stored energy. Volumetric laws 1-3 in both versions; law 4 refuted. (`C68_law4_refuted`)
* **C69** Hyperelastic evaluation stays inside its matrices. Three-dimensional evaluation safe; plane evaluation writes outside the matrix. (`C69_plane_refuted`)
* **C71** The return mapping uses a true Newton correction. Stress and yield rows exact for all laws; with kinematic hardening the back-stress rows have the opposite sign. (`C71_back_stress_sign_refuted`, `C71_back_stress_matrix_refuted`)
* **C73** The reported strain energy of a plastic material depends only on the state for an elastic law. Refuted: intermediate stresses are scaled with the final volume ratio. (`C73_path_refuted`)
* **C74** Axisymmetric total Lagrangian strain includes the large-displacement hoop strain. In-plane part exact; the hoop strain lacks the quadratic term, and elements whose radius tolerance is hit read outside the matrix (witnesses). (`C74_hoop_strain_refuted`, `C74_small_element_refuted`)
* **C75** The three-field element's coupling blocks are the exact linearisation of its residuals. All coupling blocks are exact linearisations; in a state with zero Green strain both constraint residuals are skipped although they need not vanish (witness). (`C75_unstrained_refuted`)
* **C79** Bending about a local axis uses the section's stiffness about that axis. Refuted: stiffness for bending about z uses the moment about y (and vice versa) while the rotary inertia uses the right one; holds for equal moments. (`C79_bending_axis_refuted`)
* **C80** Recovered cable forces do not depend on the parametrisation. Refuted: recovered forces scale with the square of the parameter scale. (`C80_invariance_refuted`)
* **C84** The one-dimensional plate has the same rigidity in all formulations. Refuted: version 1 uses E t^3/12, the other versions E t^3/12/(1-nu^2). (`C84_same_refuted`)
* **C86** Plate and flat shell report the same moments. Refuted: for every deflection the flat shell reports the opposite of the plate moments. (`C86_same_refuted`)
* **C87** The heated-pipe reference solution satisfies thermoelasticity. Refuted for nu > 0: the factor 1/(1-nu^2) instead of 1/(1-nu) matches an in-plane thermal strain alpha T without the plane-strain factor 1+nu (the same omission as in the material, see C06). (`C87_compatible_refuted`, `C87_displacement_refuted`)
* **C88** Shell thickness functions apply to the patches they are assigned to. Refuted: functions are stored under the property code and looked up with the material index; a zero thickness keeps the value of the patch visited before. Proved for constant non-zero thicknesses. (`C88_function_refuted`, `C88_history_refuted`)
* **C89** Projected results have storage whenever they are accessed. Exact characterisation of the undefined accesses; refuted for linear dynamics and multi-load-case analysis with projection, and for nonlinear statics with visualisation but without projection at the first unsaved step. (`C89_dynamic_refuted`, `C89_unsaved_refuted`)
* **C90** A failing simulation gives a non-zero exit code. Nonlinear program: proved for all driver statuses (which are shown to be below 256). Shell program refuted (always zero). Linear program, static analysis: exact set of failures seen; a failing HDF5 export is not. (`C90_shell_refuted`, `C90_export_refuted`)
* **C91** Result files are named after the input file. Proved for names whose only dot is that of the extension (nonlinear program: also leading dots). Refuted for ./model.xinp, dots in directory names and names without extension. (`C91_root_refuted`, `C91_directory_refuted`, `C91_no_extension_refuted`)
* **C92** Everything allocated by the linear program is released once. Everything but the HDF5 exporter is released exactly once; the exporter never is, because the clean-up closure captures the pointer before it is set. (`C92_exporter_refuted`)
* **C93** Expanding nodal vectors keeps the nodal values. Closed form of the result for all sizes; values are kept from the node where (new components)*index reaches the old number of components. Refuted for plates: second node. (`C93_plate_refuted`)
* **C94** The adaptive option is honoured by all quasi-static solvers. Refuted for the arc-length solver of the continuum program (flag passed to an ignored parameter); holds for the others. (`C94_arclength_refuted`)
* **C95** Restart output never overwrites an existing restart file. Proved for the nonlinear program when the input file name has an extension. Refuted for the other programs (no check) and for names without extension (exception). (`C95_overwrite_refuted`, `C95_exception_refuted`)
* **C96** Every point load acts once, and only where loads are needed. Proved for each simulator when the equation system has a load vector. Without one (eigenvalue, vibration or buckling analyses) a plate or shell with a point load, and a rotation-free beam with or without, stop with an error, whereas bars ignore the loads. A moment given on an element of a beam writes outside a three component vector. With HHT damping, nodal loads are scaled by 1+alpha in the residual. (`C96_no_load_vector_refuted`, `C96_vibration_refuted`, `C96_element_moment_refuted`, `C96_no_direction_refuted`)
* **C98** The external energy contains the work of the point loads. Proved for plates, shells and rotation-free beams. The bar, beam and cable simulator does not add the work of its point loads. (`C98_bar_work_refuted`)
* **C99** Load points are resolved when the model is set up. Proved for existing patches. For a patch that does not exist, an element load on bars and rotation-free beams passes the set-up because the negative answer of the library is taken for an element number; the failure shows first at assembly. (`C99_missing_patch_refuted`)
* **C100** Every loaded boundary gets the traction specified for it. Proved for plates and shells, and for solids if no boundary with a vector function was visited before one with a traction or pressure function. Otherwise the latter gets the traction of the former: the solid integrand evaluates the vector function first and never clears it (the plate and shell integrand does). (`C100_solid_refuted`, `C100_second_pass_refuted`)
* **C101** All boundary conditions taken from the analytical solution are imposed. All traction conditions are imposed, but of the displacement conditions only those with the code of the first one (plates: first of each range); others are dropped without notice. (`C101_solid_refuted`, `C101_plate_refuted`)
* **C104** A rigid contact body is set up as specified, independently of the sequence of its specification. Refuted: conditions given before the slave boundary are dropped, a prescribed motion in combined directions is ignored, and the radius is inherited from the previous body. Proved: what is in effect for every sequence, the full claim when the slaves come first, and that the penalty is the last one given, one if none is given. (`C104_order_refuted`, `C104_combined_direction_refuted`, `C104_radius_refuted`)
* **C106** Reported mean stress, triaxiality and Lode parameter have their defined meaning. Refuted for two-dimensional stresses without the zz component: the in-plane trace is divided by 2. (`C106_mean_refuted`)
* **C107** Axisymmetric strains and stretches agree, on the axis too. On the axis the deformation gradient has hoop stretch 1 for every displacement, while the linear matrix uses the limit; proved for every radius above the tolerance. (`C107_axis_refuted`)
* **C108** A condensed superelement has its own superelement and recovery files. A superelement file named *.rec is the recovery file itself; names without extension below a directory with a dot share one recovery file. (`C108_same_file_refuted`, `C108_directory_refuted`)
* **C109** Stresses in superelements are evaluated with the model and materials of the superelement. Results of all superelements are evaluated with the integrand of the first FE model, so models with other materials get wrong stresses; a null patch is dereferenced. Proved for one FE model shared by all superelements. (`C109_other_model_refuted`, `C109_materials_refuted`, `C109_missing_patch_refuted`)
* **C110** The requested superelement is condensed to the nodes of all its retained sets. Only the last condensation tag of a block is read and an unknown identifier gives an empty model without message. (`C110_several_tags_refuted`, `C110_unknown_name_refuted`)
* **C111** Bars, cables and beams get the stiffness and mass of the section and material given. Holds without EA attribute; with EA the area is not read, so the mass is that of a unit area. A cable tag with another type (or after a bar) casts a bar to a cable; a bar of type cable has no bending stiffness. Poisson's ratios outside [0,0.5) give the shear modulus of steel. (`C111_area_refuted`, `C111_cable_type_refuted`, `C111_bar_cable_refuted`, `C111_shear_refuted`)
* **C112** Section data files are read as comma separated tables. Holds for lines without empty fields and the units of metres, centi- and millimetres to the fourth power. Lines with less than three non-empty fields end in an exception; empty cells shift the values; other units are taken for one. (`C112_units_refuted`, `C112_short_line_refuted`, `C112_empty_cell_refuted`, `C112_bad_line_refuted`)
* **C114** The stiffness of the mixed element is the derivative of its internal forces. Holds for solids and plane strain. In axisymmetric solids the geometric stiffness leaves out hoop compression; the partial theorem gives the exact difference, and a compressed ring refutes the full statement. (`C114_mixed_tangent_refuted`)
* **C117** Internal forces of the updated Lagrangian element are the derivative of the strain energy. Proved for solids and plane strain. In axisymmetric solids the strains tested for zero leave the hoop strain out, so that a ring expanded without in-plane strain gets no forces (refuted). (`C117_axisymmetric_refuted`)
* **C118** The stiffness of the updated Lagrangian element is the derivative of its internal forces. Proved when every point is strained or undeformed, up to hoop compression in axisymmetric solids, which the stiffness leaves out (refuted). An element rotated as a rigid body gets the stiffness of the initial configuration, which is not the derivative of the forces (refuted). (`C118_rotated_refuted`, `C118_axisymmetric_refuted`)
* **C120** Forces and stiffness of the F-bar element are consistent. Proved for plane strain and axisymmetric solids when points are strained or undeformed. In space one entry of the tangent takes the shear stress 13 for 12 (refuted; the partial theorem gives the exact difference). Points without strain of their own get no forces though the modified volume has changed (refuted). (`C120_space_refuted`, `C120_unstrained_refuted`)
* **C121** The beam element delivers consistent forces, stiffness and mass in every solution mode. Forces, weight, stiffness and geometric parts are proved for every mode; refuted: the matrix is not the derivative of the forces in statics not marked linear, displaced eccentric elements are refused when only forces are wanted, and lumped version 2 leaves coupling terms in beam axes. Displacements below 1e-16 of the length count as zero. (`C121_consistent_refuted`, `C121_momentum_refuted`, `C121_accepted_refuted`)
* **C122** A linear elastic material in large deformations is a Saint Venant-Kirchhoff solid. refuted for axisymmetric solids (stored strains lack the hoop strain, T treats the hoop row as a shear row), for the F-bar element (strains of the unmodified deformation) and for the mixed element (no strains passed); proved for solids, plane strain and plane stress in the updated Lagrangian element (`C122_axisymmetric_stress_refuted`, `C122_axisymmetric_tangent_refuted`, `C122_fbar_refuted`, `C122_mixed_refuted`)
* **C123** A restarted simulation continues as the interrupted one would have. Times and solutions are proved to be the same for models without material history, in dynamics if initial accelerations are not requested. Refuted: plastic history is not stored, so a restarted run starts with virgin material; with initial accelerations requested the restored accelerations are replaced; the final step may not be saved after a restart; in dynamics the save times are counted from the restart. (`C123_history_refuted`, `C123_final_step_refuted`, `C123_acceleration_refuted`, `C123_save_times_refuted`)
* **C124** Restart states are available at the requested interval. Proved for dynamics, and for load incrementation when every step is saved. Refuted otherwise: the load incrementation driver writes restart states only at steps where results are saved. (`C124_static_refuted`)
* **C125** Pressures in a text input file act where and as specified. Refuted in full: a second PRESSURE section, or a pressure for code 1, replaces the pressure of the first section; face numbers are taken modulo 256; a short line dereferences a null pointer. (`C125_sections_refuted`, `C125_codes_refuted`, `C125_face_refuted`, `C125_short_line_refuted`)
* **C126** Every patch is integrated once with the material given for it in the text input. Refuted in full: a material for all patches is ignored when other lines give materials for some patches; a short line is undefined behaviour. (`C126_all_refuted`, `C126_short_line_refuted`)
* **C127** A plastic material has the parameters given in its input tag. Refuted in full: the text of the tag is never read, and Young's modulus given with a shear modulus is taken as the bulk modulus. Proved for all named hardening parameters and the pairs (E, nu) and (Bmod, Smod > 1/2). (`C127_text_refuted`, `C127_mixed_refuted`)
* **C128** Evaluations of one material at many points do not disturb each other. Holds without property functions (any threads) and with them for evaluations not overlapping in time; refuted for overlapping evaluations, because the functions' values are stored in the shared material object before use. A hyperelastic material takes the constants of the previously evaluated point where its stiffness function is not positive, and ignores a function for Poisson's ratio. Integration points of plastic materials are independent of order and threads. (`C128_linear_race_refuted`, `C128_hyperelastic_race_refuted`, `C128_hyperelastic_order_refuted`, `C128_hyperelastic_poisson_refuted`)
* **C129** Plastic results at a result point follow the deformation history of that point. Holds if the same points are visited in the same order after every increment. Refuted when results are saved at a longer interval (increments in between are skipped) and when other result points are evaluated in between (points are identified by their number in the sweep). (`C129_saving_interval_refuted`, `C129_other_points_refuted`)
* **C130** Boundary forces are the resultant of the stresses on the boundary. With strains requested as results (wantStrain), the forces are computed from strains; in axisymmetric bodies the factor 2 pi r, used for all other boundary integrals, is missing. (`C130_strain_refuted`, `C130_axisymmetric_refuted`)
* **C131** Nodal loads, total load and external energy describe the same loads. In axisymmetric bodies the total of tractions lacks the factor 2 pi r of the nodal loads; gravity with a density function that is zero at the origin is left out of the external energy; body loads below the absolute tolerance of Vec3::isZero are dropped from the load vector but not from the energy. (`C131_total_axisymmetric_refuted`, `C131_energy_density_refuted`, `C131_small_refuted`)
* **C132** Stress results refer to the requested coordinate system. The transformation is skipped unless principal stresses are wanted too (switched off by an option, and for Lagrange and spectral elements); exact stresses are always in global axes. (`C132_ignored_refuted`, `C132_exact_refuted`)
* **C133** Each property of a linear-elastic material is the one given in its tag. The lambdas reading the functions hold a copy of the pointer to the first child, so every further function of a material is read from the first child element. (`C133_second_function_refuted`, `C133_meaning_refuted`)
* **C134** The three-field element derives from one potential. Holds for strained points and the stress-free state; for solids and plane strain without restriction on the tangent. Refuted for axisymmetric elements: where the in-plane Green strains vanish (a ring widened without change of section) the forces of all three fields are skipped, and the matrix omits compressive hoop stresses in the geometric stiffness. Real arithmetic; the material is a function of the deformation gradient. (`C134_forces_refuted`, `C134_tangent_refuted`)
* **C135** The analytical solution refers to the material and plate of the model. Proved for inputs with the material before the solution (the last one for bodies, the first for plates); tractions and the precedence of the first solution hold for all inputs. False otherwise: before the material, a body solution takes the default steel, a plate solution reads a null pointer; a text line with a missing number reads a null pointer. (`C135_material_refuted`, `C135_text_refuted`, `C135_plate_refuted`)
* **C136** The materials of a finite-deformation model give their elements the stresses they describe. Refuted in part: a material given within <elasticity>, and the built-in material if none is given, is not fitted to updated Lagrangian elements (its second Piola-Kirchhoff stress is used as Cauchy stress); the version of a hyperelastic law is ignored in total Lagrangian models; of several materials without code a text section uses the last and a tag the first. Mixed and F-bar elements are not covered here (C122). (`C136_text_refuted`, `C136_elasticity_refuted`, `C136_none_refuted`, `C136_version_refuted`)
* **C137** Command-line options have their effect wherever they stand, and override the input file. Refuted as stated: an unknown option in front of the input file is taken for the file, which then is not read (this includes -RHSOnly as the usage message spells it; the program knows -RHSonly); a file directly after -dumpMatlab or -staticCond is taken for their value, and the program ends with its usage message and status zero; set names and ignored patches in front of an xml file are listed twice. Proved for all lines of well-formed options otherwise: effect, precedence, and independence of the place of the file. (`C137_unknown_refuted`, `C137_value_refuted`, `C137_twice_refuted`)
* **C138** The linear program performs the analysis asked for, and no other. Refuted as stated: -check and -staticCond are not honoured together with an eigenvalue analysis (the vibration analysis is done, or nothing, with status zero), and -check not with dynamics, load cases, coupled models or adaptivity. C138_check_partial says exactly when a data check solves nothing; C138_analysis_partial covers all other combinations without conflicts. The solvers themselves are not part of this claim. (`C138_check_refuted`, `C138_condensation_refuted`)
* **C139** Every printed norm and error estimate is the quantity its heading names. Proved for the linear program from the integration points to the report (continua), and from the norm groups to the report (plates, shells; updated Lagrangian elements). Refuted for the nonlinear programs with total Lagrangian or small-deformation elements, whose norms have another order: the volume is printed as the L2 norm of the stress, and with an analytical solution three error measures under stress headings. Refuted for plates of version 0, for which simulator and norm disagree on the analytical solution. The index of section forces is computed in IFEM and taken to follow the volume. (`C139_version_refuted`, `C139_total_refuted`, `C139_total_analytical_refuted`)
* **C140** Re-reading the input after a mesh refinement gives the model the input describes. Materials, sections, rigid sets and dual functions are those of the file after any number of refinements, and the whole model is the same for files with a material and neither nodal couplings nor contact. Refuted otherwise: nodal couplings are appended by every reading (after n refinements the slave moves n+1 times as much as it should), a contact analysis is refused at the first refinement (reported as duplicated contact tags), without material tag the default material is replaced by none, and a shell thickness function whose code is not its material index is used after it has been deleted. (`C140_couplings_refuted`, `C140_contact_refuted`, `C140_default_refuted`, `C140_thickness_refuted`)
* **C141** A nonlinear analysis continues from the same state after a mesh refinement. Proved for one patch. With several patches the vectors assembled for the new mesh are right but never stored, so the solution is left as a set of patch vectors; the history of plastic materials is lost because new material objects are created; the node weights for several sections stay those of the old mesh. (`C141_patches_refuted`, `C141_history_refuted`, `C141_weights_refuted`)
* **C142** In a converged augmented Lagrange contact analysis the contact conditions hold. Proved for one body (equivalence of the multiplier equation with the contact conditions, tolerance, work, forces). Refuted when two bodies share a slave node (C142_two_bodies_refuted): the node has one multiplier, the equations of both bodies are added, and the sum vanishes with one body penetrated. The first iteration of a step, which keeps the flag of the first node, is excluded. (`C142_two_bodies_refuted`)
* **C144** The linear elastic element is the linear elastic problem of the interpolated fields. Proved for strains that are zero or larger than the zero tolerance, for points inside the extraction domain, and except the geometric stiffness of axisymmetric solids. Refuted for smaller strains (forces are dropped) and outside the extraction domain when displacements are given (their strains are integrated into the dual load). (`C144_threshold_refuted`, `C144_outside_refuted`)
* **C145** The interface stabilisation adds the penalised jump once per face. The term and its sign at each face are proved; that it never lowers the stiffness of an element is refuted at lower faces. (`C145_energy_refuted`)
* **C148** Energy norms of linear analyses are the energies of the mesh, and the error is the smallest possible. With the suffix _refuted: strain output changes the entries of extraction fields (main_LinEl.C switches strains off only with an analytical solution), and haveLoads asks for the density at the origin only. Axisymmetric bodies with temperature are not covered (the recovered hoop stress is wrong there, C06). (`C148_strain_refuted`, `C148_gravity_refuted`)
* **C149** Plates, shells and beams described by keywords are those of the XML description. C149_assigned gives the fate of each set of the geometry and the thickness, independently of the parsers; C149_functions the pressures with functions. (`C149_all_loads_refuted`, `C149_direction_refuted`, `C149_missing_refuted`, `C149_swallow_refuted`, `C149_zero_refuted`, `C149_shown_refuted`)
* **C150** Frames of beams: equilibrium of reactions, loads and weight. moments balance when the two ends of each member have the same eccentricity (C150_moment_refuted otherwise); displacements that are not zero must exceed the threshold 1e-16 L in each displaced member (`C150_moment_refuted`)
* **C152** Every load in the input of bars, cables and beams acts on the model, or the input is refused. Proper loads are proved from the file to the load vector (without numerical damping). Refuted: loads with a direction, parameter or node out of range are dropped while the file is accepted; in the plane a load in the third direction is accepted by the reader. (`C152_dropped_refuted`, `C152_plane_refuted`)
* **C153** A thin plate is solved as its bending problem. Curvatures are unique in versions 1 and 2; C153_laplace_refuted shows two solutions of an unloaded, unsupported plate with different curvatures in version 3. (`C153_laplace_refuted`)
* **C155** A model coupled with beams is solved as one system and shown part by part. Proved but for the closing of the file after failed output (C155_closed_refuted). (`C155_closed_refuted`)

