{
 "C01": "All five modes; also shows that no entry is written out of range.",
 "C02": "Two-sided inverse in all five modes.",
 "C03": "3D, axisymmetric, plane strain (incl. sigma_zz), plane stress (condensed), 1D and the Lame parameters.",
 "C04": "Statement is false of the code: NaN passes the guard (witness). Exact for every other binary64 value.",
 "C05": "Statement is false of the code when the stiffness is given as a field: the queries ignore it. Holds for all other combinations.",
 "C06": "Statement is false of the code in plane strain (in-plane term missing) and in axisymmetric mode with a plane-strain material (E*epsT subtracted twice). Holds in 3D, plane stress and axisymmetric mode with the default material flags.",
 "C07": "Volumetric laws 1-3 exact; law 4's first derivative is not the derivative of its energy (witness).",
 "C08": "Objectivity, symmetry and small-strain tangent proved for both versions; stress-free reference fails for volumetric law 4 (witness).",
 "C09": "Set-up is idempotent except for the standard version given (K,G), where repeated set-up drifts (witness).",
 "C10": "Conversions inverse when the shear modulus exceeds 1/2; smaller shear moduli are mistaken for Poisson's ratio, and the standard hyperelastic version takes K for lambda (witnesses).",
 "C100": "Proved for plates and shells, and for solids if no boundary with a vector function was visited before one with a traction or pressure function. Otherwise the latter gets the traction of the former: the solid integrand evaluates the vector function first and never clears it (the plate and shell integrand does).",
 "C101": "All traction conditions are imposed, but of the displacement conditions only those with the code of the first one (plates: first of each range); others are dropped without notice.",
 "C103": "Library calls that store the multipliers in the patch are assumed to succeed.",
 "C104": "Refuted: conditions given before the slave boundary are dropped, a prescribed motion in combined directions is ignored, and the radius is inherited from the previous body. Proved: what is in effect for every sequence, the full claim when the slaves come first, and that the penalty is the last one given, one if none is given.",
 "C105": "Assumes the linear solver returns a solution; the code uses the matrix of the last Newton iteration, i.e. a state within the tolerance of the converged one. For stretches closer than 1e-8 but not equal the limit formula is used.",
 "C106": "Refuted for two-dimensional stresses without the zz component: the in-plane trace is divided by 2.",
 "C107": "On the axis the deformation gradient has hoop stretch 1 for every displacement, while the linear matrix uses the limit; proved for every radius above the tolerance.",
 "C108": "A superelement file named *.rec is the recovery file itself; names without extension below a directory with a dot share one recovery file.",
 "C109": "Results of all superelements are evaluated with the integrand of the first FE model, so models with other materials get wrong stresses; a null patch is dereferenced. Proved for one FE model shared by all superelements.",
 "C11": "All laws; with a hardening curve the linear term enters the slope but not the yield stress (witness).",
 "C110": "Only the last condensation tag of a block is read and an unknown identifier gives an empty model without message.",
 "C111": "Holds without EA attribute; with EA the area is not read, so the mass is that of a unit area. A cable tag with another type (or after a bar) casts a bar to a cable; a bar of type cable has no bending stiffness. Poisson's ratios outside [0,0.5) give the shear modulus of steel.",
 "C112": "Holds for lines without empty fields and the units of metres, centi- and millimetres to the fourth power. Lines with less than three non-empty fields end in an exception; empty cells shift the values; other units are taken for one.",
 "C113": "The mode inverse is part of the input (IFEM). Materials are functions of the deformation gradient with symmetric stress.",
 "C114": "Holds for solids and plane strain. In axisymmetric solids the geometric stiffness leaves out hoop compression; the partial theorem gives the exact difference, and a compressed ring refutes the full statement.",
 "C115": "Nine-digit exponent and constant: tractions on the edges of the corner below 1e-9 of the stresses, proved with enclosures of pi, sine and cosine.",
 "C116": "Explicit displacements for hole, L-shape, both cantilevers and the curved beam (with the prescribed edge displacement). The heated pipe is C87.",
 "C117": "Proved for solids and plane strain. In axisymmetric solids the strains tested for zero leave the hoop strain out, so that a ring expanded without in-plane strain gets no forces (refuted).",
 "C118": "Proved when every point is strained or undeformed, up to hoop compression in axisymmetric solids, which the stiffness leaves out (refuted). An element rotated as a rigid body gets the stiffness of the initial configuration, which is not the derivative of the forces (refuted).",
 "C119": "Axisymmetric solids are not part of the statement. The test for zero strains is taken as exact; the library uses a small tolerance.",
 "C120": "Proved for plane strain and axisymmetric solids when points are strained or undeformed. In space one entry of the tangent takes the shear stress 13 for 12 (refuted; the partial theorem gives the exact difference). Points without strain of their own get no forces though the modified volume has changed (refuted).",
 "C121": "Forces, weight, stiffness and geometric parts are proved for every mode; refuted: the matrix is not the derivative of the forces in statics not marked linear, displaced eccentric elements are refused when only forces are wanted, and lumped version 2 leaves coupling terms in beam axes. Displacements below 1e-16 of the length count as zero.",
 "C122": "refuted for axisymmetric solids (stored strains lack the hoop strain, T treats the hoop row as a shear row), for the F-bar element (strains of the unmodified deformation) and for the mixed element (no strains passed); proved for solids, plane strain and plane stress in the updated Lagrangian element",
 "C123": "Times and solutions are proved to be the same for models without material history, in dynamics if initial accelerations are not requested. Refuted: plastic history is not stored, so a restarted run starts with virgin material; with initial accelerations requested the restored accelerations are replaced; the final step may not be saved after a restart; in dynamics the save times are counted from the restart.",
 "C124": "Proved for dynamics, and for load incrementation when every step is saved. Refuted otherwise: the load incrementation driver writes restart states only at steps where results are saved.",
 "C125": "Refuted in full: a second PRESSURE section, or a pressure for code 1, replaces the pressure of the first section; face numbers are taken modulo 256; a short line dereferences a null pointer.",
 "C126": "Refuted in full: a material for all patches is ignored when other lines give materials for some patches; a short line is undefined behaviour.",
 "C127": "Refuted in full: the text of the tag is never read, and Young's modulus given with a shear modulus is taken as the bulk modulus. Proved for all named hardening parameters and the pairs (E, nu) and (Bmod, Smod > 1/2).",
 "C128": "Holds without property functions (any threads) and with them for evaluations not overlapping in time; refuted for overlapping evaluations, because the functions' values are stored in the shared material object before use. A hyperelastic material takes the constants of the previously evaluated point where its stiffness function is not positive, and ignores a function for Poisson's ratio. Integration points of plastic materials are independent of order and threads.",
 "C129": "Holds if the same points are visited in the same order after every increment. Refuted when results are saved at a longer interval (increments in between are skipped) and when other result points are evaluated in between (points are identified by their number in the sweep).",
 "C13": "Holds when all increments after the first step converge; a diverged increment is committed as history (witness).",
 "C130": "With strains requested as results (wantStrain), the forces are computed from strains; in axisymmetric bodies the factor 2 pi r, used for all other boundary integrals, is missing.",
 "C131": "In axisymmetric bodies the total of tractions lacks the factor 2 pi r of the nodal loads; gravity with a density function that is zero at the origin is left out of the external energy; body loads below the absolute tolerance of Vec3::isZero are dropped from the load vector but not from the energy.",
 "C132": "The transformation is skipped unless principal stresses are wanted too (switched off by an option, and for Lagrange and spectral elements); exact stresses are always in global axes.",
 "C133": "The lambdas reading the functions hold a copy of the pointer to the first child, so every further function of a material is read from the first child element.",
 "C134": "Holds for strained points and the stress-free state; for solids and plane strain without restriction on the tangent. Refuted for axisymmetric elements: where the in-plane Green strains vanish (a ring widened without change of section) the forces of all three fields are skipped, and the matrix omits compressive hoop stresses in the geometric stiffness. Real arithmetic; the material is a function of the deformation gradient.",
 "C135": "Proved for inputs with the material before the solution (the last one for bodies, the first for plates); tractions and the precedence of the first solution hold for all inputs. False otherwise: before the material, a body solution takes the default steel, a plate solution reads a null pointer; a text line with a missing number reads a null pointer.",
 "C136": "Refuted in part: a material given within <elasticity>, and the built-in material if none is given, is not fitted to updated Lagrangian elements (its second Piola-Kirchhoff stress is used as Cauchy stress); the version of a hyperelastic law is ignored in total Lagrangian models; of several materials without code a text section uses the last and a tag the first. Mixed and F-bar elements are not covered here (C122).",
 "C137": "Refuted as stated: an unknown option in front of the input file is taken for the file, which then is not read (this includes -RHSOnly as the usage message spells it; the program knows -RHSonly); a file directly after -dumpMatlab or -staticCond is taken for their value, and the program ends with its usage message and status zero; set names and ignored patches in front of an xml file are listed twice. Proved for all lines of well-formed options otherwise: effect, precedence, and independence of the place of the file.",
 "C138": "Refuted as stated: -check and -staticCond are not honoured together with an eigenvalue analysis (the vibration analysis is done, or nothing, with status zero), and -check not with dynamics, load cases, coupled models or adaptivity. C138_check_partial says exactly when a data check solves nothing; C138_analysis_partial covers all other combinations without conflicts. The solvers themselves are not part of this claim.",
 "C139": "Proved for the linear program from the integration points to the report (continua), and from the norm groups to the report (plates, shells; updated Lagrangian elements). Refuted for the nonlinear programs with total Lagrangian or small-deformation elements, whose norms have another order: the volume is printed as the L2 norm of the stress, and with an analytical solution three error measures under stress headings. Refuted for plates of version 0, for which simulator and norm disagree on the analytical solution. The index of section forces is computed in IFEM and taken to follow the volume.",
 "C140": "Materials, sections, rigid sets and dual functions are those of the file after any number of refinements, and the whole model is the same for files with a material and neither nodal couplings nor contact. Refuted otherwise: nodal couplings are appended by every reading (after n refinements the slave moves n+1 times as much as it should), a contact analysis is refused at the first refinement (reported as duplicated contact tags), without material tag the default material is replaced by none, and a shell thickness function whose code is not its material index is used after it has been deleted.",
 "C141": "Proved for one patch. With several patches the vectors assembled for the new mesh are right but never stored, so the solution is left as a set of patch vectors; the history of plastic materials is lost because new material objects are created; the node weights for several sections stay those of the old mesh.",
 "C142": "Proved for one body (equivalence of the multiplier equation with the contact conditions, tolerance, work, forces). Refuted when two bodies share a slave node (C142_two_bodies_refuted): the node has one multiplier, the equations of both bodies are added, and the sum vanishes with one body penetrated. The first iteration of a step, which keeps the flag of the first node, is excluded.",
 "C143": "Partial: for master surfaces whose normal does not change with the motion (planes that do not rotate); the geometric stiffness of curved surfaces is not covered here (C39-C41 treat the point contributions).",
 "C144": "Proved for strains that are zero or larger than the zero tolerance, for points inside the extraction domain, and except the geometric stiffness of axisymmetric solids. Refuted for smaller strains (forces are dropped) and outside the extraction domain when displacements are given (their strains are integrated into the dual load).",
 "C145": "The term and its sign at each face are proved; that it never lowers the stiffness of an element is refuted at lower faces.",
 "C146": "Isotropic materials with Poisson's ratio in [0,1/2); matrices in real arithmetic. The assembly (IFEM) is modelled as adding at the unknowns of the nodes.",
 "C147": "The consistent forces of the constant stress are given by the integrals of the gradients of the functions, which equal the boundary integrals for exact quadrature.",
 "C148": "With the suffix _refuted: strain output changes the entries of extraction fields (main_LinEl.C switches strains off only with an analytical solution), and haveLoads asks for the density at the origin only. Axisymmetric bodies with temperature are not covered (the recovered hoop stress is wrong there, C06).",
 "C149": "C149_assigned gives the fate of each set of the geometry and the thickness, independently of the parsers; C149_functions the pressures with functions.",
 "C15": "XML input is safe; text input with hardening type 6 and fewer than 13 parameters reads outside the list (witness).",
 "C150": "moments balance when the two ends of each member have the same eccentricity (C150_moment_refuted otherwise); displacements that are not zero must exceed the threshold 1e-16 L in each displaced member",
 "C151": "All parts proved. The tangent needs the geometric stiffness in the system matrix (the default); with it switched off (intPrm[3] > 0) the matrix is only that of the rest position. Assembly by IFEM and elimination of supports are modelled as addition and reactions.",
 "C152": "Proper loads are proved from the file to the load vector (without numerical damping). Refuted: loads with a direction, parameter or node out of range are dropped while the file is accepted; in the plane a load in the third direction is accepted by the reader.",
 "C153": "Curvatures are unique in versions 1 and 2; C153_laplace_refuted shows two solutions of an unloaded, unsupported plate with different curvatures in version 3.",
 "C155": "Proved but for the closing of the file after failed output (C155_closed_refuted).",
 "C16": "All criteria except type 3, whose trial check never reports yielding.",
 "C19": "2D general and both isotropic kernels exact. The 3D general kernel exchanges Voigt positions 5 and 6 (exact for tangents invariant under that exchange; witness otherwise), and the 1D branch drops the integration weight (witness).",
 "C20": "2D and axisymmetric exact; in 3D 80 of 81 entries exact, entry (9,3) uses sigma_12 instead of sigma_13 (witness).",
 "C25": "Total Lagrangian volume and boundary loads satisfy it; the updated Lagrangian element adds the gradient to the wrong vector (witness).",
 "C26": "Linear in the stress for 2D, 3D and axisymmetric tension; a compressive hoop stress is ignored (witness).",
 "C27": "Mass and body loads in all modes, tractions in the nonlinear elements and in linear non-axisymmetric ones; the linear axisymmetric total omits the 2*pi*r weight (witness).",
 "C28": "Refuted as stated: some integrand/mode/parameter combinations write to a matrix or vector the element container does not hold (listed in C28_gaps_refuted), and a parameter set after the mode leaves stale slots. Partial: exact characterisation of the safe combinations over all call sequences, no gap outside the listed ones, and exactly which matrices and vectors linear elasticity forms.",
 "C29": "Refuted as stated: a buffered STATIC visit, the mass of MASS_ONLY, and a read of an element never stored. Partial: the round trip holds for every visit sequence when both matrix slots are in use.",
 "C30": "Exact condition proved for 2D/3D continua (iff); refuted where principal values meet internal variables, for strain output in plane stress and in one dimension. Plates, shells and cables fully proved.",
 "C31": "Every entry of the continuum, updated Lagrangian, plate and shell norms is matched with its label, and no name function reads outside its table, except the refuted cases: extraction entries without analytical solution, prefix dropped with several extraction functions, second nodal projection and boundary slots of version-2 plates, own-basis projections on plate boundaries, unsquared moment jump.",
 "C32": "Maximum of the absolute value proved for any visiting order; refuted for sign/location under ties and for a material registered after the maximum table is sized.",
 "C33": "Base, continuum and mixed names proved; refuted for the axisymmetric third component with prefix and for names without prefix.",
 "C34": "Save rule relative to the previous save proved for all step sequences, and exactness for equal steps; refuted as stated: save times drift off the multiples, the last step is lost with a long first interval, and a cut-back leaves a stale output time.",
 "C36": "Status zero and nonzero characterised for all outcome sequences (dynamic driver: iff); refuted: status 9 has two causes, failed serialisation gives 0, dynamic statuses are summed and collide.",
 "C37": "Acceptance, termination, predictor, corrector and bookkeeping proved; refuted: zero first correction accepted with NaN residual, infinite first norm used as reference. Floating point for the convergence test, exact reals for the increments.",
 "C39": "The weights sum to one but are attached to the wrong master points and lose their sign: the projection is reproduced exactly on the diagonal p = q >= 0 (3D) and for p >= 0 (2D); refuted elsewhere.",
 "C40": "Force balance, residual = mortar matrix times gaps, and the assembled spring tangent (symmetric, positive semi-definite, translation invariant) are proved in full; the geometric part of the point tangent has the slave-master sign wrong and resists common translations (refuted).",
 "C41": "The active set equals the contact condition of the current state except that the first node keeps a stale flag when the first iteration of the first step is re-entered (refuted there).",
 "C42": "Stiffness symmetric, non-negative, equal to the Timoshenko energy integral; rigid motions force-free with axes of the eccentric axis (partial). Refuted in general: length and axes are taken from the grid points, so unequal end eccentricities give forces for a rigid rotation.",
 "C43": "Symmetric; energy equals the integral of N times slope squared; exact force couple for rigid rotation and no end moments, also about the shear centre.",
 "C44": "Consistent and lumped mass; rigid translation after global and eccentric transformation; exact rotary inertia; gravity resultant and its moment; diagonal forms.",
 "C45": "Area integrals of boxes and pipes, positivity, Bredt torsion constant proved. Refuted: second-moment functions give a rotary inertia without the density, the polar function serves both GIt and Ix, and a pipe wall thicker than the diameter is accepted with negative area.",
 "C46": "Energy gradient, objectivity, exact tangent proved for all strain measures when both parts share a matrix, also for the complete element evaluation. Refuted for a separate geometric matrix: its off-diagonal blocks are taken from the material part.",
 "C47": "Lumped mass and gravity proved. Refuted for the consistent mass, which couples the directions.",
 "C48": "Strain, unit normal and curvature gradients exact for every curved configuration and number of nodes; forces are the energy gradient; material part PSD. Refuted for the second derivative of the curvature; the tangent is exact where binormal and normal lie along coordinate axes (_partial). The straight-cable fallback is an oracle.",
 "C49": "Zero resultant and moment in the plane; symmetrised stiffness is the symmetric part. Refuted: at each end two of the four columns of the load stiffness have the wrong sign, and out of plane only part of the moment is applied.",
 "C50": "All three versions proved equal to their quadratic forms; version 1 against the through-thickness integral of the plane-stress layer energy.",
 "C51": "Strains, resultants and stiffness times rigid motion vanish for any number of nodes; hypothesis: area element above the tolerance of Vec3::normalize (1e-16).",
 "C52": "Refuted in two ways: the nonlinear recovery evaluates the reference curvature with the deformed normal, so a rotation recovers moments; and its moment sign exchanges the Top and Bottom stresses. Proved: internal forces, membrane forces, rotation invariance of the internal forces, linear surface stresses.",
 "C53": "Internal forces are the gradient of the shell potential and the tangent is the exact derivative of the internal forces, for any number of nodes.",
 "C54": "Interior lines get the full load; refuted on the patch boundary (one half) and lines off the grid get nothing. Of several line loads in the input only the last is kept.",
 "C55": "Equilibrium in Cartesian coordinates at every point, free boundaries, section resultants and far field. The L-shape is in C115, displacements in C116.",
 "C56": "Series: each pair of harmonics once, derivatives exact, load coefficients are Fourier's, moments are those of the deflection. Refuted: the relative-change test stops the sum early (e.g. centred patch of two thirds of the sides uses one term). Circular plate refuted: log10 instead of ln and a sign make the moments balance no load and disagree with the deflection.",
 "C57": "Refuted in general: -UL after -MX or -Fbar downgrades the formulation, and <planestrain/> is lost when -2D follows the file name. Proved: the last request counts (command line, and input file where updatedlagrange refines), invariance under permutation without conflicts; file settings are overridden exactly as stated.",
 "C58": "Refuted on the axis of a cylindrical system (0/0). Proved off the axis: the cylindrical, spherical and Cartesian systems are orthonormal and right-handed.",
 "C59": "Refuted: overlapping intervals are resolved in map order, not in the listed order, and a point outside all intervals without default material fails. Proved: pixel index in range for all coordinates, intensity is the first channel scaled to 0..1, least matching interval is used, and listing order irrelevant for disjoint intervals.",
 "C60": "Refuted: the section index is off by one and the last one is out of range; the total reaction counts a node on two sections twice. Proved: weighted sum over the nodes of the section, and the total for sections without common nodes.",
 "C61": "Refuted on ties (node order decides). Proved when the closest node is unique and for straight boundaries.",
 "C62": "Refuted for an empty table (index wraps around). Proved for all non-empty tables, for the shell and the beam drivers.",
 "C63": "The equations of rigid couplings are generated in IFEM, outside the repository, and are not modelled. For the general couplings read from file: constraints proved to be exactly those listed; they reproduce small rigid motions iff the weights sum to one and interpolate the position, which is not checked (refuted).",
 "C64": "Proved for positive save increments, with arbitrary write failures; refuted for a zero increment (division by zero) and a negative one (decreasing numbers), which the code does not reject.",
 "C65": "Exact rational arithmetic; double precision is exact for up to 26 levels (beyond that the knot vector would have more than 67 million knots).",
 "C66": "Assumes that IFEM's Newmark solver assembles and solves once per iteration and expands once per converged step.",
 "C67": "Exact characterisation of when the cast is defined. Refuted: a static-mode object created after a dynamic one is read as a dynamic object (undefined behaviour).",
 "C68": "Volumetric laws 1-3 in both versions; law 4 refuted.",
 "C69": "Three-dimensional evaluation safe; plane evaluation writes outside the matrix.",
 "C71": "Stress and yield rows exact for all laws; with kinematic hardening the back-stress rows have the opposite sign.",
 "C73": "Refuted: intermediate stresses are scaled with the final volume ratio.",
 "C74": "In-plane part exact; the hoop strain lacks the quadratic term, and elements whose radius tolerance is hit read outside the matrix (witnesses).",
 "C75": "All coupling blocks are exact linearisations; in a state with zero Green strain both constraint residuals are skipped although they need not vanish (witness).",
 "C79": "Refuted: stiffness for bending about z uses the moment about y (and vice versa) while the rotary inertia uses the right one; holds for equal moments.",
 "C80": "Refuted: recovered forces scale with the square of the parameter scale.",
 "C81": "Both reductions proved for any number of nodes.",
 "C82": "Moments are through-thickness integrals; shear forces are the divergence of the moments; the plain second derivatives of the other versions recover the moments.",
 "C83": "Nodal loads, total load and mass matrix proved for 1 and 3 unknowns per node.",
 "C84": "Refuted: version 1 uses E t^3/12, the other versions E t^3/12/(1-nu^2).",
 "C85": "Energy identity with the contravariant reference metric; hypothesis: the base vectors exceed the normalisation tolerance.",
 "C86": "Refuted: for every deflection the flat shell reports the opposite of the plate moments.",
 "C87": "Refuted for nu > 0: the factor 1/(1-nu^2) instead of 1/(1-nu) matches an in-plane thermal strain alpha T without the plane-strain factor 1+nu (the same omission as in the material, see C06).",
 "C88": "Refuted: functions are stored under the property code and looked up with the material index; a zero thickness keeps the value of the patch visited before. Proved for constant non-zero thicknesses.",
 "C89": "Exact characterisation of the undefined accesses; refuted for linear dynamics and multi-load-case analysis with projection, and for nonlinear statics with visualisation but without projection at the first unsaved step.",
 "C90": "Nonlinear program: proved for all driver statuses (which are shown to be below 256). Shell program refuted (always zero). Linear program, static analysis: exact set of failures seen; a failing HDF5 export is not.",
 "C91": "Proved for names whose only dot is that of the extension (nonlinear program: also leading dots). Refuted for ./model.xinp, dots in directory names and names without extension.",
 "C92": "Everything but the HDF5 exporter is released exactly once; the exporter never is, because the clean-up closure captures the pointer before it is set.",
 "C93": "Closed form of the result for all sizes; values are kept from the node where (new components)*index reaches the old number of components. Refuted for plates: second node.",
 "C94": "Refuted for the arc-length solver of the continuum program (flag passed to an ignored parameter); holds for the others.",
 "C95": "Proved for the nonlinear program when the input file name has an extension. Refuted for the other programs (no check) and for names without extension (exception).",
 "C96": "Proved for each simulator when the equation system has a load vector. Without one (eigenvalue, vibration or buckling analyses) a plate or shell with a point load, and a rotation-free beam with or without, stop with an error, whereas bars ignore the loads. A moment given on an element of a beam writes outside a three component vector. With HHT damping, nodal loads are scaled by 1+alpha in the residual.",
 "C98": "Proved for plates, shells and rotation-free beams. The bar, beam and cable simulator does not add the work of its point loads.",
 "C99": "Proved for existing patches. For a patch that does not exist, an element load on bars and rotation-free beams passes the set-up because the negative answer of the library is taken for an element number; the failure shows first at assembly."
}