p("C96", "Every point load acts once, and only where loads are needed",
  "Each concentrated load given in the input is added exactly once, with its value at the current time, to the external load vector in its node or distributed by the basis functions of its element, and to no other vector; analyses that need no load vector ignore the point loads.",
  "all numbers and kinds of point loads, analysis modes and numbers of load vectors",
  "The tests use one or two loads in static analyses; the failing combinations (eigenvalue analysis with point loads, moments on elements) are not run.",
  ["Beam/SIMElasticBar.C:SIMElasticBar::assembleDiscreteTerms", "Shell/SIMKLShell.C:SIMKLShell::assembleDiscreteTerms", "Linear/SIMLinElBeamC1.C:SIMLinElBeamC1::assembleDiscreteTerms", "Beam/SIMElastic1D.C:SIMElastic1D::assemblePoint", "Elasticity/ElasticBase.C:ElasticBase::evalPoint", "Elasticity/KirchhoffLove.C:KirchhoffLove::evalPoint"])
p("C97", "The point load gradient is the derivative of the point loads",
  "In arc-length analyses the load gradient vector receives the time derivative of what the point loads add to the load vector.",
  "all differentiable load functions and numbers of loads",
  "A wrong gradient changes the path followed, not the converged states.",
  ["Beam/SIMElasticBar.C:SIMElasticBar::assembleDiscreteTerms", "Shell/SIMKLShell.C:SIMKLShell::assembleDiscreteTerms"])
p("C98", "The external energy contains the work of the point loads",
  "The part of the external energy due to the point loads is the work of the assembled point load vector over the displacements.",
  "all point loads and displacement vectors",
  "The energy is only printed and compared with recorded output of the same code.",
  ["Shell/SIMKLShell.C:SIMKLShell::externalEnergy", "Linear/SIMLinElBeamC1.C:SIMLinElBeamC1::externalEnergy", "Beam/SIMElasticBar.h:SIMElasticBar"])
p("C99", "Load points are resolved when the model is set up",
  "Setting up the model succeeds exactly if every load point can be resolved, and then each load acts on the element at its point if that is allowed, else in the node there, else in the closest node.",
  "all load points, patches and meshes",
  "The tests only use load points on existing patches.",
  ["Beam/SIMElastic1D.C:SIMElastic1D::findLoadPoint", "Beam/SIMElasticBar.C:SIMElasticBar::preprocessB", "Shell/SIMKLShell.C:SIMKLShell::preprocessB", "Linear/SIMLinElBeamC1.C:SIMLinElBeamC1::preprocessB"])
p("C100", "Every loaded boundary gets the traction specified for it",
  "Whatever boundaries were visited before, in this or earlier assembly passes, the traction used on a boundary is the function specified for that boundary.",
  "all sets of boundary functions of both kinds and all visiting sequences",
  "The tests apply functions of one kind only; the error appears when both kinds are used in one model.",
  ["Elasticity/SIMElasticity.C:SIMElasticity::initNeumann", "Elasticity/Elasticity.h:Elasticity::setTraction", "Elasticity/Elasticity.C:Elasticity::getTraction", "Elasticity/KirchhoffLove.h:KirchhoffLove::setTraction", "Shell/SIMKLShell.C:SIMKLShell::initNeumann"])
p("C101", "All boundary conditions taken from the analytical solution are imposed",
  "Every displacement or traction condition that refers to the analytical solution is imposed if the solution has the field needed.",
  "all lists of boundary properties",
  "The tests have at most one such displacement condition.",
  ["Elasticity/SIMElasticity.C:SIMElasticity::preprocessA", "Linear/SIMLinElKL.C:SIMLinElKL::preprocessA"])
p("C102", "Pressures act on the patches they are assigned to",
  "The pressure functions in effect on a patch are the common one and those assigned to that patch, each once, whatever patches were visited before.",
  "all assignments and visiting sequences",
  "State carried over between patches depends on the visiting sequence.",
  ["Shell/SIMKLShell.C:SIMKLShell::initBodyLoad", "Linear/SIMLinElBeamC1.C:SIMLinElBeamC1::initBodyLoad", "Elasticity/KirchhoffLove.C:KirchhoffLove::setPressure"])
p("C103", "Every slave boundary node has exactly one contact multiplier of its own",
  "In an augmented Lagrange contact analysis the multipliers of the contact elements are given by one injective numbering of the slave boundary nodes, shared between elements and patches, listed in the elements' node sequence, and using exactly the numbers following the existing nodes.",
  "all sets of contact elements over any number of patches",
  "The tests have a few elements on one patch; uniqueness over shared nodes concerns all meshes.",
  ["FiniteDeformation/SIMContact.C:SIMContact::addLagrangeMultipliers"])
p("C104", "A rigid contact body is set up as specified, independently of the sequence of its specification",
  "All boundary conditions given for a rigid body act on it from all its slave boundaries, its radius is the one given for it or else the default, and every body with a slave boundary takes part in the contact.",
  "all sequences of body specifications",
  "The tests use one conventional ordering of the input.",
  ["FiniteDeformation/SIMContact.C:SIMContact::parseContactTag", "FiniteDeformation/SIMContact.C:SIMContact::preprocessContact"])
p("C105", "The plastic tangent is the derivative of the stress",
  "If the principal trial stretches are equal or differ by more than the tolerance, the material tangent gives, for every superposed deformation, the convected rate of the Kirchhoff stress per current volume, where the rates of the principal stresses are those of the solution of the local problem (plastic step) or of Hencky's law (elastic step); the Cauchy stress has the trial principal directions.",
  "all principal directions, stretches, stresses, deformation rates and differentiable families of solutions, with or without kinematic hardening",
  "Tests only observe convergence for some load cases; an inconsistent tangent just converges slower.",
  ["FiniteDeformation/PlasticMaterial.C:PlasticMaterial::PlasticPoint::evaluate"])
p("C106", "Reported mean stress, triaxiality and Lode parameter have their defined meaning",
  "The mean stress is a third of the sum of the principal stresses, triaxiality is its ratio to the von Mises stress, and the Lode parameter is in [-1,1] with the extremes for two equal principal stresses; all are zero where undefined and the ratios do not depend on the stress level.",
  "all stress states and dimensions",
  "Bounds and invariances over a continuum; no test checks these outputs in two dimensions.",
  ["FiniteDeformation/PlasticMaterial.C:PlasticMaterial::ResultPoint::principalStress", "FiniteDeformation/PlasticMaterial.C:PlasticMaterial::ResultPoint::getTriax", "FiniteDeformation/PlasticMaterial.C:PlasticMaterial::ResultPoint::getLode"])
p("C107", "Axisymmetric strains and stretches agree, on the axis too",
  "In axisymmetric analyses the strain-displacement matrix gives the radial, axial, hoop and shear strains of the interpolated field, the hoop strain being u_r/r and its limit du_r/dr on the axis; points at negative radius are rejected; and the stretches of the deformation gradient are one plus these strains at every radius.",
  "all radii, displacements, shape functions and numbers of nodes",
  "The axis is a measure-zero case no regression test places a result point on with finite deformations.",
  ["Elasticity/Elasticity.C:Elasticity::formBmatrix", "Elasticity/Elasticity.C:Elasticity::formDefGradient"])
p("C108", "A condensed superelement has its own superelement and recovery files",
  "The superelement file and the recovery file written by a static condensation are two different files next to each other, and superelements with different names never share a recovery file.",
  "all file names",
  "Depends on where dots occur in the path; tests use one name.",
  ["Linear/SIMLinEl.h:SIMLinEl::parse", "main_LinEl.C:main"])
p("C109", "Stresses in superelements are evaluated with the model and materials of the superelement",
  "When secondary results are written for a model with superelements, every superelement gets exactly one result block per component, attached to its geometry, with as many values as geometry points; each value is evaluated with the FE model and the material of the patch it belongs to.",
  "all numbers of superelements, FE models, patches, materials and components",
  "The only superelement test has a single model; needs two models with different materials.",
  ["Linear/SIMLinElSup.C:SIMLinElSup::writeGlvS2", "Linear/SIMLinElSup.C:SIMLinElSup::getMyProblem", "Linear/SIMLinElSup.C:SIMLinElSup::tesselatePatch", "Linear/SIMLinElSup.C:SIMLinElSup::parse"])
p("C110", "The requested superelement is condensed to the nodes of all its retained sets",
  "With -staticCond <id> exactly the model blocks not belonging to another superelement are read; the retained nodes are those of all topology sets given, in increasing sequence, an invalid set is an error, and an unknown identifier is reported.",
  "all input files, identifiers and topology sets",
  "Quantifies over all block sequences and sets.",
  ["Linear/SIMLinEl.h:SIMLinEl::parse", "Linear/SIMLinEl.h:SIMLinEl::preprocessB"])
p("C111", "Bars, cables and beams get the stiffness and mass of the section and material given",
  "Area and second moment given, or those of the pipe given, determine axial stiffness, bending stiffness and mass per length; explicit stiffnesses replace the products and explicit mass the mass; a cable is a cable whatever tag is used; the shear modulus of a beam follows from modulus of elasticity and Poisson's ratio.",
  "all combinations of attributes, tags and types, and all values",
  "The attributes interact; tests give one combination each.",
  ["Beam/SIMElasticBar.C:SIMElasticBar::parse", "Beam/SIMElasticBar.C:SIMElasticBar::getBarIntegrand", "Beam/BeamProperty.C:BeamProperty::parsePipe"])
p("C112", "Section data files are read as comma separated tables",
  "Each line of a section data file gives a label, a unit and values; the values are converted from the unit to metres, empty cells stay empty, blank lines are ignored, and each property has the values of its own line whatever the sequence of the lines.",
  "all files, numbers of lines and columns and all units of length",
  "Quantifies over all files; the only test file has no empty cells.",
  ["Beam/BeamProperty.C:BeamProperty::readCSV"])
p("C113", "Internal forces of the mixed element are the derivative of its strain energy",
  "With the internal pressure modes of the mixed updated Lagrangian formulation, the internal forces returned by an element are the derivative of the strain energy in which the volume change of every integration point is replaced by its projection on the modes, for any hyperelastic material, in solids, plane strain and axisymmetric solids.",
  "all elements, numbers of nodes, points and modes, materials with a stored energy, deformations of positive volume and directions",
  "Ranges over all deformations and is a statement about derivatives.",
  ["FiniteDeformation/NonlinearElasticityULMX.C:NonlinearElasticityULMX::evalInt", "FiniteDeformation/NonlinearElasticityULMX.C:NonlinearElasticityULMX::finalizeElement"])
p("C114", "The stiffness of the mixed element is the derivative of its internal forces",
  "For every material whose tangent is the derivative of its stress, the tangent stiffness returned by the mixed element with internal pressure modes is the derivative of the internal forces it returns with respect to the nodal displacements.",
  "all elements, numbers of nodes, points and modes, materials with a consistent tangent, deformations of positive volume and pairs of directions",
  "A wrong term only slows the convergence of the iterations; results of tests stay the same.",
  ["FiniteDeformation/NonlinearElasticityULMX.C:NonlinearElasticityULMX::finalizeElement", "FiniteDeformation/MixedTanMat.C", "FiniteDeformation/accKMx.f", "Elasticity/Elasticity.C:Elasticity::formKG"])
p("C115", "The L-shape reference solution is in equilibrium with free edges",
  "The reference stresses of the L-shaped domain satisfy the equilibrium equations at every point of the domain, and the tractions on both edges of the re-entrant corner vanish to nine digits of the stresses there.",
  "all points of the domain, all sizes, loads and Poisson's ratios",
  "A reference solution is trusted by the tests themselves; a singular field cannot be settled by sampling.",
  ["Linear/AnalyticSolutions.C:Lshape::Lshape", "Linear/AnalyticSolutions.C:Lshape::evaluate"])
p("C116", "Reference stresses are those of a displacement field",
  "Each closed-form reference solution is the stress state, by Hooke's law in plane stress or plane strain, of a displacement field that meets the prescribed displacements.",
  "all points of the domain and all parameters of the solutions (hole, L-shape, cantilevers, curved beam)",
  "Stresses in equilibrium that are not compatible are never reached by refining the mesh; tests compare with one mesh.",
  ["Linear/AnalyticSolutions.C:Hole", "Linear/AnalyticSolutions.C:Lshape", "Linear/AnalyticSolutions.C:CanTS", "Linear/AnalyticSolutions.C:CanTM", "Linear/AnalyticSolutions.C:CurvedBeam"])
p("C117", "Internal forces of the updated Lagrangian element are the derivative of the strain energy",
  "For any hyperelastic material the internal forces returned by the updated Lagrangian displacement element are the derivative of its strain energy with respect to the nodal displacements, in solids, plane strain and axisymmetric solids.",
  "all elements, numbers of nodes and points, materials with a stored energy, deformations of positive volume and directions",
  "Ranges over all deformations and is a statement about derivatives; a ring expanded as a rigid section is not covered by any test.",
  ["FiniteDeformation/NonlinearElasticityUL.C:NonlinearElasticityUL::evalInt", "FiniteDeformation/NonlinearElasticityUL.C:NonlinearElasticityUL::kinematics"])
p("C118", "The stiffness of the updated Lagrangian element is the derivative of its internal forces",
  "For every material whose spatial tangent is the derivative of its stress, the tangent stiffness returned by the updated Lagrangian displacement element is the derivative of the internal forces it returns with respect to the nodal displacements.",
  "all elements, numbers of nodes and points, materials with a consistent tangent, deformations of positive volume (rotated elements too) and pairs of directions",
  "A wrong stiffness only slows the iterations; results of tests stay the same.",
  ["FiniteDeformation/NonlinearElasticityUL.C:NonlinearElasticityUL::evalInt", "Elasticity/Elasticity.C:Elasticity::formKG"])
p("C119", "Forces and stiffness of the total Lagrangian element are consistent",
  "In solids and plane strain, the internal forces of the total Lagrangian element are the derivative of the strain energy, and its stiffness is the derivative of the internal forces, for every material whose second Piola-Kirchhoff stress and tangent are derivatives of its stored energy and stress.",
  "all elements, numbers of nodes and points, materials, deformations of positive volume and directions",
  "Statement about derivatives at all deformations.",
  ["FiniteDeformation/NonlinearElasticityTL.C:NonlinearElasticityTL::evalInt", "FiniteDeformation/NonlinearElasticityTL.C:NonlinearElasticityTL::kinematics"])
p("C120", "Forces and stiffness of the F-bar element are consistent",
  "The internal forces of the F-bar element do the virtual work of the stresses at the deformation whose volume change is replaced by the one extrapolated from the sampling points, and its stiffness is the derivative of these forces.",
  "all elements, numbers of nodes, points and sampling points, materials with a consistent tangent, deformations of positive volume and pairs of directions",
  "The tangent has over thirty hand-written entries; a wrong one only slows the iterations.",
  ["FiniteDeformation/NonlinearElasticityFbar.C:NonlinearElasticityFbar::reducedInt", "FiniteDeformation/NonlinearElasticityFbar.C:NonlinearElasticityFbar::evalInt"])
p("C121", "The beam element delivers consistent forces, stiffness and mass in every solution mode",
  "In every solution mode in which they are wanted, the nodal forces of a beam element are its weight less the forces of its deformation, they balance the weight acting at the centre of gravity, the stiffness returned is their derivative, the mass matrix has the linear momentum of the beam, and an element that is evaluated in one mode is evaluated in all, with eccentric end points as well.",
  "all solution modes and integration parameters, sections, axes, eccentricities, gravity vectors, mass formulations, displacements and virtual motions",
  "Depends on the combination of mode, eccentricity, mass formulation and displacement; the tests use linear statics and vibration.",
  ["Beam/ElasticBeam.C:ElasticBeam::evalInt", "Beam/ElasticBeam.C:ElasticBeam::finalizeElement", "Elasticity/ElasticBase.C:ElasticBase::setMode"])
p("C122", "A linear elastic material in large deformations is a Saint Venant-Kirchhoff solid",
  "In the large-deformation formulations a linear elastic material returns the Cauchy stress of the solid with Hooke's law between Green strain and second Piola-Kirchhoff stress, and the tangent of that stress; element forces and stiffness are therefore derivatives of the strain energy. This holds in solids, plane strain, plane stress and axisymmetric solids, and for the updated Lagrangian, F-bar and mixed elements.",
  "all moduli, Poisson's ratios from 0 to 1/2, deformations of positive volume, elements, points and directions",
  "The push-forward matrix has 36 entries whose errors only show in combined shear and stretch; tests use few deformations and no ring with a linear material.",
  ["FiniteDeformation/LinearMaterial.C:LinearMaterial::evaluate", "FiniteDeformation/NonlinearElasticityUL.C:NonlinearElasticityUL::kinematics", "FiniteDeformation/NonlinearElasticityFbar.C:NonlinearElasticityFbar::evalInt", "FiniteDeformation/NonlinearElasticityULMX.C:NonlinearElasticityULMX::finalizeElement"])
p("C123", "A restarted simulation continues as the interrupted one would have",
  "A run started from a restart state goes through the same times and solutions, and saves results at the same times, as the run that wrote the state would have done if it had not been interrupted.",
  "all materials, solvers, time stepping and save parameters, and any number of steps before and after the restart",
  "Needs runs interrupted at every possible step with every material and save interval; the tests compare complete runs with stored results.",
  ["Elasticity/NonlinearDriver.C:NonlinearDriver::solveProblem", "Elasticity/NonlinearDriver.C:NonlinearDriver::serialize", "Elasticity/NewmarkDriver.h:NewmarkDriver::solveProblem", "Elasticity/NewmarkDriver.h:NewmarkDriver::serialize", "FiniteDeformation/PlasticMaterial.C:PlasticMaterial::evaluate", "main_NonLinEl.C:runSimulator"])
p("C124", "Restart states are available at the requested interval",
  "If restart output is requested at every n-th step, the state after each of these steps is written, whatever the save interval of the results.",
  "all intervals of restart and result output and all runs",
  "Depends on how the two intervals and the step lengths interfere over a run.",
  ["Elasticity/NonlinearDriver.C:NonlinearDriver::solveProblem", "Elasticity/NewmarkDriver.h:NewmarkDriver::solveProblem"])
p("C125", "Pressures in a text input file act where and as specified",
  "Every pressure line of a text input file gives one load on the named patch faces, with its own value and direction; a line that cannot be meant so is refused with a message.",
  "all input files with any number of sections and lines, all property sets and patch numberings",
  "Depends on the combination of sections in one file; the test inputs have one section each.",
  ["Elasticity/SIMElasticity.C:SIMElasticity::parse", "Elasticity/SIMElasticity.C:SIMElasticity::initNeumann"])
p("C126", "Every patch is integrated once with the material given for it in the text input",
  "The materials of a text input file are used for exactly the patches they are given for; every patch is integrated once.",
  "all input files with any number of materials, codes and patches",
  "Depends on the combination of material lines and property sets.",
  ["Elasticity/SIMElasticity.C:SIMElasticity::parse", "Elasticity/SIMElasticity.C:SIMElasticity::initMaterial", "Elasticity/Elasticity.C:Elasticity::parseMatProp"])
p("C127", "A plastic material has the parameters given in its input tag",
  "The yield stress of a plastic material is, at every plastic strain, that of the hardening law chosen in its tag with the parameters given there, and its density and elastic constants are those given, in whichever way the tag gives them.",
  "all tags, values and combinations of attributes, text and child elements, and all plastic strains",
  "Positions of parameters shift between input and use, by law; tests use two of the laws.",
  ["FiniteDeformation/SIMFiniteDefEl.C:SIMFiniteDefEl::parseMaterial", "FiniteDeformation/PlasticMaterial.C:PlasticMaterial::PlasticMaterial", "FiniteDeformation/PlasticMaterial.C:PlasticMaterial::PlasticPoint::yfunc"])
p("C128", "Evaluations of one material at many points do not disturb each other",
  "The stress at a point is that of the material properties at the point, whatever points are evaluated before it or at the same time by other threads; and a plastic material has the same history afterwards in whatever order its integration points are visited.",
  "all property functions, any number of threads and points, and all interleavings of their evaluations",
  "Depends on the scheduling of threads, which a test neither controls nor enumerates.",
  ["Elasticity/LinIsotropic.C:LinIsotropic::evaluate", "FiniteDeformation/NeoHookeMaterial.C:NeoHookeMaterial::evaluate", "FiniteDeformation/NeoHookeMaterial.C:NeoHookeMaterial::findLameParams", "FiniteDeformation/PlasticMaterial.C:PlasticMaterial::evaluate"])
p("C129", "Plastic results at a result point follow the deformation history of that point",
  "The plastic strain and stress reported at a result point are those following from the deformations of that point through all increments, as found at an integration point with the same deformations; they depend neither on how often results are saved nor on which other results are evaluated.",
  "all material laws, deformation histories, result points, and sequences of result evaluations",
  "Depends on the whole sequence of result evaluations of a run; tests save one kind of results at every step.",
  ["FiniteDeformation/PlasticMaterial.C:PlasticMaterial::initResultPoints", "FiniteDeformation/PlasticMaterial.C:PlasticMaterial::evaluate", "FiniteDeformation/NonlinearElasticityUL.C:NonlinearElasticityUL::initResultPoints"])
p("C130", "Boundary forces are the resultant of the stresses on the boundary",
  "The force and moment reported for a boundary are the integrals of the stress times the outward normal and of its moment about the given point; nodal forces of the boundary have the same resultant and moment. No other entries of the result are used.",
  "all stress fields, boundaries with any number of points, reference points, space dimensions, result options and basis functions that sum to one",
  "Statement about all stress fields and boundaries, and the result options in force when the forces are computed; tests have one flow of forces.",
  ["Elasticity/Elasticity.C:ElasticityForce::evalBou", "Elasticity/Elasticity.C:ElasticityForce::evalForce", "Elasticity/Elasticity.C:ElasticityForce::getNoComps", "Elasticity/Elasticity.C:Elasticity::evalSol"])
p("C131", "Nodal loads, total load and external energy describe the same loads",
  "The total load reported is the sum of the nodal loads, and the external energy reported is the work of the nodal loads on the displacements, for gravity, body forces and tractions together.",
  "all gravity vectors, density functions, body forces, tractions, points, numbers of nodes and displacements; plane, axisymmetric and solid bodies",
  "The three are computed in different functions with their own conditions; no test compares them with each other for varying density or in axisymmetric bodies.",
  ["Elasticity/Elasticity.C:Elasticity::formBodyForce", "Elasticity/Elasticity.C:Elasticity::evalBou", "Elasticity/Elasticity.C:Elasticity::haveLoads", "Elasticity/Elasticity.C:ElasticityNorm::evalInt", "Elasticity/Elasticity.C:ElasticityNorm::evalBou"])
p("C132", "Stress results refer to the requested coordinate system",
  "With a local coordinate system, the reported stresses are the components in its directions at the point, whichever other results are requested; the equivalent stress and principal values are independent of the system; and exact stresses are reported in the same system, so that they can be compared.",
  "all stress tensors, points, local systems and result options (solids)",
  "Statement about all tensors and rotations; tests with a local system use one combination of options.",
  ["Elasticity/Elasticity.C:Elasticity::evalSol", "Elasticity/LocalSystems.C", "Elasticity/SIMElasticity.C:SIMElasticity::preprocessA"])
p("C133", "Each property of a linear-elastic material is the one given in its tag",
  "The stiffness, Poisson's ratio, density and thermal properties of a linear-elastic material are the functions given in the child elements of the material tag bearing their names, else the values of the attributes, else the defaults, in whatever combination they are given.",
  "all material tags with any children and attributes, all texts and types of functions, and all points, temperatures and ages",
  "Depends on the combination and sequence of the child elements; test inputs have at most one function per material.",
  ["Elasticity/LinIsotropic.C:LinIsotropic::parse", "Elasticity/LinIsotropic.C:LinIsotropic::getMassDensity", "Elasticity/LinIsotropic.C:LinIsotropic::getPoissonRatio"])
p("C134", "The three-field element derives from one potential",
  "With displacements, volume change and pressure as unknowns, the unbalanced forces of an element are the derivatives of the sum of strain energy at the independent volume change and pressure times the volume constraint, in all three fields, and the assembled symmetric matrix is the derivative of these forces along every change of the fields.",
  "all kinds of solids, numbers of nodes of both bases, integration points, hyperelastic materials, nodal values with positive volumes, loads already assembled, and directions of change",
  "Derivatives along all directions at all states; tests solve single problems to convergence, where the forces vanish and the matrix affects only the number of iterations.",
  ["FiniteDeformation/NonlinearElasticityULMixed.C:NonlinearElasticityULMixed::evalIntMx", "FiniteDeformation/NonlinearElasticityULMixed.C:MixedElmMats"])
p("C135", "The analytical solution refers to the material and plate of the model",
  "A built-in analytical solution (hole, L-shape, cantilevers, curved beam, pipe, plates) has the elastic constants, and for plates the thickness, of the material given for the model, wherever the material and the solution stand in the input. Boundaries with analytical tractions use the same solution as the error norms, and the solution is the same whether given as a tag or as text.",
  "all inputs with any number and sequence of materials and analytical solutions, in both input formats, in two and three dimensions and for plates",
  "Depends on the order of the input, which a test fixes; a wrong constant changes only the computed errors.",
  ["Linear/SIMLinEl.h:SIMLinEl::parseAnaSol", "Linear/SIMLinEl2D.C:SIMLinEl2D::parseDimSpecific", "Linear/SIMLinEl3D.C:SIMLinEl3D::parseDimSpecific", "Linear/SIMLinElKL.C:SIMLinElKL::parseAnaSol", "Elasticity/Elasticity.C:Elasticity::parseMatProp", "Shell/SIMKLShell.C:SIMKLShell::parse"])

p("C136", "The materials of a finite-deformation model give their elements the stresses they describe",
  "However the materials of a finite-deformation analysis are given (ISOTROPIC and PLASTIC sections, or tags), every one is kept in its order and the elements of its set or code use it, the first of a code counting; a single material is that of all elements. The Cauchy stress of an element is then the one the material describes, in total and updated Lagrangian elements alike: Saint Venant-Kirchhoff for a linear elastic material, the hyperelastic law of the given version, or plasticity; what a formulation cannot do is refused. The two input formats give the same model, and plastic materials are refused with result projections that cannot deal with their history.",
  "all inputs with any number of materials in any sequence of sections and tags, all formulations with displacements only, all deformations with positive volume",
  "The wrong stress measure gives a plausible solution that differs from the right one only at second order in the strains; which material a default is depends on the order of the input.",
  ["FiniteDeformation/SIMFiniteDefEl.C:SIMFiniteDefEl::parse", "FiniteDeformation/SIMFiniteDefEl.C:SIMFiniteDefEl::parseMaterial", "FiniteDeformation/SIMFiniteDefEl.C:SIMFiniteDefEl::preprocessB", "FiniteDeformation/NLoptions.C:NLoptions::getIntegrand", "FiniteDeformation/LinearMaterial.C:LinearMaterial::evaluate", "FiniteDeformation/PlasticMaterial.C:PlasticMaterial::evaluate", "Elasticity/Elasticity.C:Elasticity::parseMatProp"])

p("C137", "Command-line options have their effect wherever they stand, and override the input file",
  "The linear program does with its command line what the words say: every option sets what it is documented to set and nothing else, with the values following it; settings of the input file hold unless an option says otherwise, and of two options setting the same the last counts. It does not matter whether the input file stands before, between or after the options. Words that are no option are reported, and never change what is read.",
  "all command lines (any number of words in any sequence), contents of the input file, and sets of options known to the finite element library",
  "The number of sequences of options is unlimited; tests run a few of them, always with the input file first.",
  ["main_LinEl.C:main", "Elasticity/ElasticityArgs.C:ElasticityArgs::parseArg", "Elasticity/ElasticityArgs.C:ElasticityArgs::parse"])
p("C138", "The linear program performs the analysis asked for, and no other",
  "From the command line and input file follow the analyses performed: static, adaptive, buckling, vibration, modal or direct time integration, load cases, coupled models, condensation, or assembly only. A data check solves nothing, and a static condensation is done if asked for; what cannot be combined is refused.",
  "all combinations of options, eigenvalue modes, dimensions, and restart",
  "Combinations of options are not tested; the program ends successfully although something else was done.",
  ["main_LinEl.C:main", "Linear/DynamicDriver.C:dynamicSim", "Linear/MultiLoadCaseDriver.C:mlcSim"])

p("C139", "Every printed norm and error estimate is the quantity its heading names",
  "In the report of the linear program and in the step reports of the nonlinear programs, every value is the norm, error, section force or effectivity index named in front of it, every percentage refers to the quantity named in brackets, and no available quantity is missing: with and without analytical solution, dual solution, projections, and for any number of section forces. The volume is a volume, not its root.",
  "all integration points, stresses, loads and weights; any number of extraction functions and projections; continua, plates and shells; all formulations of the nonlinear programs",
  "The position of an entry depends on options that tests do not combine, and a value under a wrong heading looks plausible.",
  ["Elasticity/SIMElasticity.C:Elastic::printNorms", "main_LinEl.C:main", "Shell/SIMKLShell.C:SIMKLShell::printNormGroup", "Elasticity/NonlinearDriver.C:NonlinearDriver::printNorms", "Elasticity/Elasticity.C:Elasticity::getVolumeIndex", "Elasticity/SIMElasticity.C:SIMElasticity::haveAnaSol"])

p("C140", "Re-reading the input after a mesh refinement gives the model the input describes",
  "When the mesh is refined during an analysis, the input file is read once more. The model is then again the one described by the file, however many refinements have been made: its materials and the material chosen for the whole model (a default one if none is given), the boundary sections, rigid and nodal couplings, dual functions, contact bodies, and the thicknesses of shells.",
  "all input files (any number and sequence of the tags), any number of refinements, any sequence of patches visited in between",
  "A refinement happens inside a long analysis and a wrong constraint or a deleted function gives a plausible solution; adaptive tests have neither couplings, contact nor thickness functions.",
  ["Elasticity/SIMElasticity.C:SIMElasticity::clearProperties", "Shell/SIMKLShell.C:SIMKLShell::clearProperties", "Elasticity/SIMRigid.C:SIMRigid::parseCouplings", "FiniteDeformation/SIMContact.C:SIMContact::parseContactTag", "Elasticity/NonlinearDriver.C:NonlinearDriver::adaptMesh"])
p("C141", "A nonlinear analysis continues from the same state after a mesh refinement",
  "If error indicators call for it, the mesh is refined between two load steps and the analysis resumes on the new mesh from the same state: all solution vectors have, on every patch, the values transferred by the refinement; the history of the material points is kept; the section forces printed afterwards are those of the sections on the new mesh. Without refinement nothing changes, and a failure of any part ends the analysis.",
  "all meshes with any number of patches and solution vectors, all transferred values, all histories, any number of sections",
  "Needs a refined mesh of several patches inside a nonlinear analysis; a Newton iteration can hide a wrong start vector.",
  ["Elasticity/NonlinearDriver.C:NonlinearDriver::adaptMesh", "Elasticity/NonlinearDriver.C:NonlinearDriver::calcInterfaceForces", "Elasticity/SIMElasticity.C:Elastic::printBoundaryForces"])

p("C142", "In a converged augmented Lagrange contact analysis the contact conditions hold",
  "The equation of the Lagrange multiplier of a boundary node is satisfied exactly if the contact conditions hold there: the mean gap around the node is not negative, the contact force is compressive or zero, and there is no force across an open gap; if it is satisfied up to a tolerance, so are the conditions. The forces on the bodies are then the multipliers, acting through the mean gaps: contact only pushes, and action equals reaction. If a node with a contact area has no multiplier, the analysis stops. This holds for each body a boundary is in contact with.",
  "all contact elements with any number of nodes and points, any number of slave nodes and bodies, all gaps, multipliers and penalties greater than zero, all iterations but the first of a step",
  "The conditions are inequalities at every node; a run shows one converged state, and a wrong sign in one branch only shows when a node opens or closes during iteration.",
  ["FiniteDeformation/MortarContact.C:MortarAugmentedLag::initIntegration", "FiniteDeformation/MortarContact.C:MortarAugmentedLag::initElementBou", "FiniteDeformation/MortarContact.C:MortarAugmentedLag::evalBou", "FiniteDeformation/MortarContact.C:MortarAugmentedLag::assemble", "FiniteDeformation/SIMContact.C:SIMContact::addLagrangeMultipliers"])
p("C143", "The augmented Lagrange contact matrix is the derivative of the contact equations",
  "As long as the same nodes are in contact, a change of the displacements and multipliers changes the contact forces and the multiplier equations by the negative product of the contact matrix and the change, so that a Newton step which solves the multiplier equations ends in a state with the contact conditions satisfied; and the matrix is symmetric.",
  "all contact elements with any number of nodes and points, all motions of nodes, all changes of multipliers, all penalties greater than zero",
  "A wrong entry of the matrix only slows the iterations down; comparing with difference quotients covers one configuration.",
  ["FiniteDeformation/MortarContact.C:MortarAugmentedLag::evalBou", "FiniteDeformation/MortarContact.C:MortarAugmentedLag::assemble", "FiniteDeformation/MortarContact.C:MortarAugmentedLag::ALElmMats::getNewtonMatrix", "FiniteDeformation/MortarContact.C:MortarContact::assResAndTangent"])

p("C144", "The linear elastic element is the linear elastic problem of the interpolated fields",
  "For plane stress, plane strain, axisymmetric and three-dimensional solids, the matrices and vectors of a linear elastic element are the virtual work of Hooke's law for the interpolated displacements: stiffness, geometric stiffness of the current stress, mass, internal forces, body and thermal loads, and the load of a dual problem from its extraction function, integrated over the element. Each is added where it was asked for and nowhere else. Stiffness and mass are symmetric, the stiffness energy is zero exactly for fields without strain, and rigid motions give no forces.",
  "all numbers of nodes and points, all shape functions, gradients, moduli, densities, loads, displacements and extraction functions, all positions of the results",
  "A test compares one mesh and one load; options for several results in one element are rarely combined, and wrong terms can vanish on regular elements.",
  ["Elasticity/LinearElasticity.C:LinearElasticity::evalInt", "Elasticity/LinearElasticity.C:LinearElasticity::initElement", "Elasticity/LinearElasticity.C:LinearElasticity::formInitStrainForces", "Elasticity/Elasticity.C:Elasticity::formBmatrix", "Elasticity/LinIsotropic.C:LinIsotropic::evaluate"])
p("C145", "The interface stabilisation adds the penalised jump once per face",
  "On an interface the linear elastic element adds gamma times Young's modulus times the element size across the interface to the power 2p+1 times the product of the supplied functions, equally in all directions: it is symmetric, positive at the upper end of the parameter and negative at the lower end. Nothing is added if no stiffness is computed elsewhere; a missing stiffness matrix, an axisymmetric model or a point that is not on an interface is reported.",
  "all dimensions, numbers of nodes, degrees, sizes, moduli and functions",
  "The sign and the face are chosen by exact comparison of parameters; a test sees one face of one element size.",
  ["Elasticity/LinearElasticity.C:LinearElasticity::evalInt", "Elasticity/LinearElasticity.C:LinearElasticity::initElement"])
p("C146", "In a linear static analysis the reactions balance the loads and the energies agree",
  "For any mesh of linear elastic solids, let displacements and reactions satisfy the assembled equations, the reactions acting at prescribed unknowns only. Then in each direction the reactions add up to minus the total of the body and nodal forces, and their work on any rigid motion is minus that of the loads; thermal loads contribute nothing (axisymmetric bodies: the axial direction). Twice the strain energy is the work of the loads and reactions. Two load cases satisfy reciprocity, and the quantity extracted from the solution is the work of the loads on the dual solution. The displacements are unique up to strain-free fields and make the potential energy minimal.",
  "all meshes with any numbers of nodes, elements and points, all connectivities, shape functions, moduli, loads, prescribed values and extraction functions",
  "A run checks one mesh and one load; a term assembled at a wrong place or with a wrong sign in one mode can leave the residual of the solver at zero.",
  ["Elasticity/LinearElasticity.C:LinearElasticity::evalInt", "Elasticity/LinearElasticity.C:LinearElasticity::setMode", "Elasticity/ElasticBase.C:ElasticBase::setMode", "Elasticity/Elasticity.C:Elasticity::formBmatrix"])
p("C147", "States of constant strain and free thermal expansion are reproduced exactly",
  "If all parts have the same material and there are no body forces, a displacement field linear in the coordinates has no nodal forces at nodes whose functions vanish on the boundary, and on the boundary those of its constant stress. Prescribing it at some unknowns and applying these forces at the others, the computed displacements are the linear field at all nodes, and the strain is constant, whatever the mesh. Under a uniform temperature strain the free expansion is in equilibrium with the thermal loads without reactions, also with different materials and in axisymmetric bodies.",
  "all meshes with any numbers of nodes, elements and points, all linear fields, all moduli in the admissible range, all temperatures",
  "The patch test is usually run on one or two meshes; it must hold for every connectivity and element distortion.",
  ["Elasticity/LinearElasticity.C:LinearElasticity::evalInt", "Elasticity/LinearElasticity.C:LinearElasticity::formInitStrainForces", "Elasticity/Elasticity.C:Elasticity::formBmatrix", "Elasticity/LinIsotropic.C:LinIsotropic::evaluate"])
p("C148", "Energy norms of linear analyses are the energies of the mesh, and the error is the smallest possible",
  "The reported norms of a linear analysis are the sums over all integration points of: the strain energy of the computed displacements, the work of the body forces, the complementary energies of the analytical stress and of its difference to the computed one, the volume, and the virtual work on every extraction field. In equilibrium with supports at rest the energy equals the external energy plus the work of the other loads. If the analytical stress balances the loads, the squared error is the exact energy minus the computed one, and no other displacement field with the same prescribed values has a smaller error. Two parts fail: with strains as output the entries for extraction fields are products of strains instead of energies, and gravity is left out of the external energy when the density is zero at the origin.",
  "all meshes, displacements, analytical stresses, extraction fields, plane stress, plane strain, axisymmetric and 3D bodies, moduli in the admissible range",
  "The identities between norms hold for every mesh and every solution; regression tests compare the printed digits of a few.",
  ["Elasticity/Elasticity.C:ElasticityNorm::evalInt", "Elasticity/Elasticity.C:Elasticity::evalSol", "Elasticity/Elasticity.C:Elasticity::haveLoads", "Elasticity/Elasticity.C:Elasticity::getBodyforce", "Elasticity/Elasticity.C:Elasticity::formCmat", "main_LinEl.C:main"])
p("C149", "Plates, shells and beams described by keywords are those of the XML description",
  "A plate, shell or rotation-free beam given by keyword sections in a text file has the gravity, materials, thicknesses, property assignments and pressures on every patch written there, the same as the equivalent XML input, for any sequence of complete sections with positive pressure codes. The point loads are those of the last section only, so all of them act exactly if no earlier section has any (XML: all act). Failing parts: loads of earlier sections are lost and may pass on their direction; a section with fewer lines than announced is accepted, so that a plate or shell calls a missing function, or a following keyword line is taken as data (gravity becomes a pressure); a pressure with code zero acts everywhere in text and nowhere in XML; pressures given as text, or of beams, are not kept for visualisation.",
  "all sequences of sections with any numbers of lines, all values, codes and boundary properties; plates, shells and beams",
  "The two parsers are separate code; a test compares single files, and the lost loads only show with two sections.",
  ["Shell/SIMKLShell.C:SIMKLShell::parse", "Linear/SIMLinElBeamC1.C:SIMLinElBeamC1::parse", "Elasticity/KirchhoffLove.C:KirchhoffLove::haveLoads", "Shell/SIMKLShell.C:SIMKLShell::initBodyLoad"])

p("C150", "Frames of beams: equilibrium of reactions, loads and weight",
  "In a static analysis of any frame of beam elements, displacements in equilibrium have reactions that balance the nodal loads and the weight of the members, in force and in moment; twice the strain energy of the members is the work of loads, reactions and weight; the work of one load case in the displacements of another is reciprocal; equal loads and supports give displacements that differ by strainless motions only; and solving the equations assembled at rest once gives equilibrium. One part fails: the moments do not balance for members with different eccentricities at their ends.",
  "all numbers of nodes and members, connectivities, local axes, lengths, section properties, eccentricities, gravity, loads, supports and displacements",
  "A test checks the tip displacement of a cantilever; the balance is a statement about every frame, every support and every displacement, and fails for one kind of member only.",
  ["Beam/ElasticBeam.C:ElasticBeam::evalInt", "Beam/ElasticBeam.C:ElasticBeam::finalizeElement", "Beam/ElasticBeam.C:ElasticBeam::initElement", "Elasticity/ElasticBase.C:ElasticBase::setMode"])

p("C151", "A truss is balanced exactly where its potential energy is stationary",
  "In a static analysis of a truss of two-node bars with one to three unknowns in each node the system is assembled exactly if every bar is longer than 1e-8 before and after the displacements. "
  "The assembled forces are minus the gradient of the energy stored in the bars (for any strain measure) and of the potential of their weights, acting in their middles. "
  "So displacements balance given nodal loads exactly if they make the potential energy stationary. "
  "With geometric stiffness the assembled matrix is minus the derivative of the assembled forces; it is symmetric; at rest every bar is a spring EA/L against the relative displacement of its ends along it. "
  "Reactions, loads and weights balance in force, and in moment about the current positions of the nodes.",
  "for all trusses (any number of nodes and bars, any strain measure, one to three unknowns in each node), displacements, directions, loads and supports",
  "Tests compare the displacements of a few trusses with stored values; they cannot show that forces and matrix belong to one energy for all trusses and displacements.",
  ["Beam/ElasticBar.C:ElasticBar::evalInt", "Beam/ElasticBar.C:ElasticBar::finalizeElement", "Elasticity/ElasticBase.C:ElasticBase::setMode"])

p("C152", "Every load in the input of bars, cables and beams acts on the model, or the input is refused",
  "The nodal and point loads written in the bar, cable or beam elements of an input file act with their value at the time in their node or point and direction, each once, in whatever sequence they and other elements stand; nothing else is in the load vector. "
  "Bars and beams in one file are refused. A load that cannot act (no such direction, a parameter outside the patch, no node) makes the reader refuse the file. "
  "The last part fails: such loads are dropped and the file is accepted, and in the plane a load in the third direction is accepted although the nodes have only two.",
  "for all input files, numbers of elements and loads, values, times and models",
  "Tests run files with correct loads; that a misspelt load is lost without a message only shows in its absence.",
  ["Beam/SIMElasticBar.C:SIMElasticBar::parse", "Beam/SIMElasticBar.C:SIMElasticBar::preprocessA", "Beam/SIMElasticBar.C:SIMElasticBar::preprocessB", "Beam/SIMElasticBar.C:SIMElasticBar::assembleDiscreteTerms"])

p("C153", "A thin plate is solved as its bending problem",
  "In a linear static analysis of a two-dimensional thin plate the assembled matrix gives the virtual work of the moments, the load vector that of weight and pressures, and the reported total is the load on the plate; "
  "in the first formulation the energy is that of plane-stress layers whose strains vary linearly over the thickness. The matrix is symmetric. "
  "With functions that represent flat deflections, reactions, nodal loads and area loads balance in force and in moment about both axes. "
  "Twice the energy is the work of all forces, load cases are reciprocal, and deflections balance the loads exactly if no others with the same prescribed values have a smaller potential energy. "
  "In the formulations with moments and with the Hessian, loads and supports determine the curvatures. The last part fails for the formulation with the Laplacian: saddles cost no energy.",
  "for all plates (any number of elements, nodes and points, material and thickness varying from point to point), loads, supports and deflections",
  "Tests compare norms of a few plates with stored values; balance, minimum and uniqueness are statements on all plates and loads.",
  ["Linear/KirchhoffLovePlate.C:KirchhoffLovePlate::evalInt", "Linear/KirchhoffLovePlate.C:KirchhoffLovePlate::evalK1", "Linear/KirchhoffLovePlate.C:KirchhoffLovePlate::evalK2", "Elasticity/KirchhoffLove.C:KirchhoffLove::formBodyForce", "Elasticity/KirchhoffLove.C:KirchhoffLove::getPressure"])
p("C154", "Vibration modes and buckling factors of linear solids",
  "In a vibration analysis the two matrices handed to the eigenvalue solver give, for all nodal fields, twice the strain energy and twice the kinetic energy of the mesh; in a linear buckling analysis the second one gives the work of the stresses of the pre-buckling displacements in the rotations. Hence for whatever eigenpair solves these equations at the free unknowns: the eigenvalue is the ratio of the energies, is never negative and is zero for motions without strain only; modes with different eigenvalues are orthogonal in both energies and independent, and the energies of a combination are the sums of theirs; rigid motions of an unsupported body have eigenvalue zero, and a translation has the total mass. Multiplying the pre-buckling displacements by a number divides the buckling factors by it, a positive factor belongs to a mode in which the stresses do negative work or which has no strain, and a body in tension has no positive factor but for motions without strain.",
  "all meshes of any number of elements, nodes, points and shape functions, all three kinds of solids in vibration and plane or solid ones in buckling, all materials, densities and supports, all pre-buckling displacements with strains zero or above the threshold of the material, all eigenpairs and lists of eigenpairs",
  "tests compare a few frequencies of a few meshes with reference values; signs, orthogonality and superposition concern all modes of all meshes",
  ["Elasticity/LinearElasticity.C:LinearElasticity::setMode", "Elasticity/LinearElasticity.C:LinearElasticity::evalInt", "Elasticity/ElasticBase.C:ElasticBase::setMode"])
p("C155", "A model coupled with beams is solved as one system and shown part by part",
  "A coupled static analysis assembles every part once, in static mode, into the equation system of the first part and solves it once; nothing is solved if an assembly fails. The status tells the first step that failed (4 assembly, 5 solution, 12 geometry, 16 results), zero if none did. Values at result points are printed for the parts that have such points, with the tolerance given for the run if positive, and the global print tolerance is left as it was. The fields u1 and u2 are exported once, if and only if the system was solved. The results of each part are attached to the geometry blocks of this part and no block belongs to two parts; afterwards no part refers to the file. Failing part: the file is closed only if all outputs succeed.",
  "all numbers of coupled simulators (at least one), all outcomes of their assembly, solution and output calls, all numbers of patches, tolerances and output formats",
  "Tests run successful analyses of two parts and compare printed values; failures, more parts, and the block numbers in the file are not looked at.",
  ["Linear/SIMmcStatic.C:SIMmcStatic::solveStatic", "main_LinEl.C:main"])
