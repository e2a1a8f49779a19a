{"id": "C01", "title": "Isotropic elastic stiffness is symmetric and positive definite", "statement": "For every admissible Young's modulus and Poisson's ratio and every analysis mode (1D, plane stress, plane strain, axisymmetric, 3D) the constitutive matrix returned by the linear isotropic material is symmetric and every non-zero strain does strictly positive work against the stress it causes. The call never writes outside the matrix it sized.", "quantifier": "all E>0, all nu in [0,0.5), all five modes, all strain vectors", "why_tests_cant": "Tests evaluate a handful of moduli; indefiniteness or asymmetry only shows for particular nu/strain combinations and then as a failing solver far away.", "anchors": ["Elasticity/LinIsotropic.C:LinIsotropic::evaluate"]}
{"id": "C02", "title": "The inverse constitutive matrix is the inverse", "statement": "For every mode, the matrix returned when the inverse is requested is the two-sided inverse of the matrix returned when the stiffness is requested.", "quantifier": "all E>0, all nu in [0,0.5), all modes", "why_tests_cant": "Energy norms silently become wrong if the two branches (separate hand-written formulas) disagree for some nu; a test compares single numbers.", "anchors": ["Elasticity/LinIsotropic.C:LinIsotropic::evaluate"]}
{"id": "C03", "title": "Stresses obey Hooke's law of the 3D solid in every mode", "statement": "The stress returned for a strain equals lambda*tr(eps)*I+2*mu*eps of the 3D solid: directly in 3D and axisymmetric mode, with eps_zz=0 in plane strain (including the reported sigma_zz), and with eps_zz eliminated so that sigma_zz=0 in plane stress. The Lame parameters returned by the material are the ones of that law.", "quantifier": "all admissible E, nu, all modes, all strains", "why_tests_cant": "It is an identity between four hand-derived matrices and one law, for a continuum of inputs.", "anchors": ["Elasticity/LinIsotropic.C:LinIsotropic::evaluate"]}
{"id": "C04", "title": "Inadmissible Poisson's ratios are rejected", "statement": "An evaluation succeeds only when Poisson's ratio lies in [0,0.5); every other double, including NaN, makes it fail.", "quantifier": "every IEEE-754 double as Poisson's ratio", "why_tests_cant": "There are 2^64 doubles and the interesting ones (NaN, infinities, signed zero, the half-open end) are exactly those a test forgets.", "anchors": ["Elasticity/LinIsotropic.C:241", "Elasticity/LinIsotropic.C:332"]}
{"id": "C05", "title": "All stiffness queries of one material agree", "statement": "The Young's modulus used to form the constitutive matrix at a point is the one reported by the stiffness query and the one used for the plate stiffness at that point, whichever of constant, function, field or ageing law defines it.", "quantifier": "all combinations of stiffness definitions, all points, all ages", "why_tests_cant": "The combinations of optional definitions multiply; test inputs use one definition at a time.", "anchors": ["Elasticity/LinIsotropic.C:LinIsotropic::evaluate", "Elasticity/LinIsotropic.C:LinIsotropic::getStiffness", "Elasticity/LinIsotropic.C:LinIsotropic::getPlateStiffness"]}
{"id": "C06", "title": "Free thermal expansion causes no stress and constrained expansion gives the 3D stress", "statement": "For an isotropic body heated uniformly: if the strain equals the free thermal expansion the recovered stress is zero, and in general the recovered stress is the 3D Hooke stress of (total strain minus thermal strain), with total eps_zz=0 in plane strain.", "quantifier": "all moduli, temperatures changes, strains and 2D/axisymmetric/3D modes", "why_tests_cant": "The recovered stress looks plausible for any input; only the comparison with the 3D law for all inputs shows that a term is missing or counted twice.", "anchors": ["Elasticity/Elasticity.C:Elasticity::evalSol", "Elasticity/LinearElasticity.C:LinearElasticity::getThermalStrain", "Elasticity/LinearElasticity.C:LinearElasticity::formInitStrainForces"]}
{"id": "C07", "title": "Volumetric moduli are the derivatives of the volumetric energy", "statement": "For each volumetric law offered by the hyperelastic material, the reported pressure-like modulus is the first derivative of the reported volumetric energy with respect to J, and the reported second modulus is the second derivative.", "quantifier": "all bulk moduli, all J>0, all volumetric laws", "why_tests_cant": "A wrong derivative only degrades Newton convergence or energy balance slightly; tests compare converged displacements.", "anchors": ["FiniteDeformation/NeoHookeMaterial.C:NeoHookeMaterial::volumetricModuli"]}
{"id": "C08", "title": "Hyperelastic stresses are objective, symmetric and vanish in the reference state", "statement": "The Cauchy stress of the standard neo-Hooke material is J^-1*(mu*(b-I)+lambda*lnJ*I) of the left Cauchy-Green tensor b; it is zero at F=I, rotates with a superposed rigid rotation, and the spatial tangent is symmetric.", "quantifier": "all deformation gradients with J>0, all rotations, all Lame parameters", "why_tests_cant": "Objectivity ranges over all rotations and all deformation gradients.", "anchors": ["FiniteDeformation/NeoHookeMaterial.C:NeoHookeMaterial::evaluate", "FiniteDeformation/NeoHookeMaterial.C:stdNeoHooke"]}
{"id": "C09", "title": "Hyperelastic parameters survive repeated set-up", "statement": "Converting the input parameters (E,nu) or (K,G) to Lame form gives the same material however many times the set-up is performed.", "quantifier": "all parameter pairs, any number of repeated set-ups", "why_tests_cant": "A history property: the value depends on how often a conversion ran before.", "anchors": ["FiniteDeformation/NeoHookeMaterial.C:NeoHookeMaterial::findLameParams"]}
{"id": "C10", "title": "Elastic constants convert consistently between (E,nu) and (K,G)", "statement": "The conversions between Young's modulus/Poisson's ratio and bulk/shear modulus used by the plastic and hyperelastic materials are mutually inverse and agree with the Lame parameters of the linear material.", "quantifier": "all admissible E, nu", "why_tests_cant": "An identity over a continuum of parameters across separately written formulas.", "anchors": ["FiniteDeformation/PlasticMaterial.C:PlasticMaterial::PlasticMaterial", "FiniteDeformation/NeoHookeMaterial.C:NeoHookeMaterial::findLameParams", "Elasticity/LinIsotropic.C:LinIsotropic::evaluate"]}
{"id": "C11", "title": "Hardening slopes are the derivatives of the yield stress", "statement": "For every hardening law the reported hardening slope is the derivative of the current yield stress with respect to the accumulated plastic strain.", "quantifier": "all hardening parameters and all accumulated plastic strains", "why_tests_cant": "A wrong slope only changes the number of local iterations for most data; it gives wrong stresses only at large strain increments.", "anchors": ["FiniteDeformation/PlasticMaterial.C:PlasticMaterial::PlasticPoint::yfunc"]}
{"id": "C12", "title": "Re-evaluating an increment does not accumulate history", "statement": "Within one load increment, evaluating a plastic point any number of times for any sequence of trial deformations leaves the next result dependent only on the last converged state and the last trial deformation.", "quantifier": "all sequences of trial evaluations inside an increment", "why_tests_cant": "The number and values of the Newton iterates are not controllable in a test.", "anchors": ["FiniteDeformation/PlasticMaterial.C:PlasticMaterial::evaluate", "FiniteDeformation/PlasticMaterial.C:PlasticMaterial::PlasticPoint::evaluate", "FiniteDeformation/PlasticMaterial.C:PlasticMaterial::PlasticPoint::updateState"]}
{"id": "C13", "title": "Only converged increments become history", "statement": "The plastic history used by an increment is the one of the last converged increment, also when increments in between diverged and were repeated with a smaller step.", "quantifier": "all histories of converged and rejected increments", "why_tests_cant": "Needs a diverging Newton iteration at a particular increment; the wrong history then looks like a slightly different material.", "anchors": ["FiniteDeformation/PlasticMaterial.C:PlasticMaterial::initIntegration", "FiniteDeformation/PlasticMaterial.C:PlasticMaterial::PlasticPoint::updateState", "Elasticity/NonlinearDriver.C:NonlinearDriver::solveProblem"]}
{"id": "C14", "title": "The accumulated strain energy is path independent for a linear law", "statement": "The incremental strain-energy integral kept for each point equals one half stress times strain of the current state for every linear symmetric stress-strain law and every strain history, with any number of increments.", "quantifier": "all symmetric linear laws, all strain paths of any length", "why_tests_cant": "Path independence quantifies over all paths.", "anchors": ["FiniteDeformation/PlasticMaterial.C:PlasticMaterial::PlasticPoint::energyIntegral"]}
{"id": "C15", "title": "Material input of any length is safe to evaluate", "statement": "Whatever number of parameters the input gives for a plastic material, evaluating the material reads only parameters that exist.", "quantifier": "all parameter-list lengths, both input formats, all hardening laws", "why_tests_cant": "Reading past the end of an array usually returns a plausible number, so a test passes.", "anchors": ["FiniteDeformation/PlasticMaterial.C:PlasticMaterial::PlasticMaterial", "FiniteDeformation/PlasticMaterial.C:PlasticMaterial::PlasticPoint::yfunc", "FiniteDeformation/SIMFiniteDefEl.C"]}
{"id": "C16", "title": "A stress state outside the yield surface is seen as plastic by every yield criterion", "statement": "For each yield criterion, when the equivalent stress exceeds the current yield stress the yield function is positive.", "quantifier": "all stresses, all yield criteria, all parameters", "why_tests_cant": "The faulty branch depends on an internal flag and on the stress invariants jointly.", "anchors": ["FiniteDeformation/PlasticMaterial.C:PlasticMaterial::PlasticPoint::yfunc"]}
{"id": "C17", "title": "Green strain vanishes under rigid rotation and B is its derivative", "statement": "In the total Lagrangian formulation the strain is zero exactly when F is a rotation (F^T F=I), and for elements of any number of nodes the strain-displacement matrix is the exact linearisation: E(u+d)=E(u)+B(u)d+(quadratic remainder in d), in 2D and 3D.", "quantifier": "all deformation gradients, all displacement fields, all numbers of element nodes", "why_tests_cant": "Exactness of a derivative is a statement about all directions and all nodes.", "anchors": ["FiniteDeformation/NonlinearElasticityTL.C:NonlinearElasticityTL::kinematics"]}
{"id": "C18", "title": "The two ways of forming internal forces agree", "statement": "The tensor form of the internal forces (optimised element) equals minus B^T times the second Piola-Kirchhoff stress (standard element) for every node.", "quantifier": "all F, all symmetric stresses, all nodes", "why_tests_cant": "Two independent implementations are only compared on a few elements.", "anchors": ["FiniteDeformation/NonlinearElasticity.C:NonlinearElasticity::evalInt", "FiniteDeformation/NonlinearElasticityTL.C:NonlinearElasticityTL::kinematics"]}
{"id": "C19", "title": "The tensorial tangent equals B^T C B", "statement": "The optimised material stiffness kernel returns B^T C B for every symmetric constitutive matrix, and the isotropic short-cut kernel equals the general kernel.", "quantifier": "all constitutive matrices, all F, all shape-function gradients", "why_tests_cant": "For isotropic matrices an index mix-up is invisible, and tests only use isotropic materials.", "anchors": ["FiniteDeformation/stiff_TL.f", "FiniteDeformation/NonlinearElasticity.C"]}
{"id": "C20", "title": "The F-bar spatial tangent is C plus the initial-stress term and is symmetric", "statement": "The fourth-order spatial tangent assembled for the F-bar elements equals C_ijkl + delta_jl*sigma_ik entry by entry (2D, axisymmetric, 3D) and is symmetric for symmetric C and sigma.", "quantifier": "all symmetric C and sigma, all 16/25/81 entries", "why_tests_cant": "Eighty-one hand-written entries; a wrong stress component in one of them only matters for stress states where the components differ.", "anchors": ["FiniteDeformation/NonlinearElasticityFbar.C:getAmat2D", "FiniteDeformation/NonlinearElasticityFbar.C:getAmat3D"]}
{"id": "C21", "title": "Volume-modified deformation gradients have the projected volume change", "statement": "The modified deformation gradient of the F-bar and mixed formulations has determinant equal to the averaged volume ratio, keeps the isochoric part, and equals F when the averaged ratio equals det F.", "quantifier": "all F with det F>0, all positive volume ratios, 2D and 3D", "why_tests_cant": "A determinant identity over all matrices.", "anchors": ["FiniteDeformation/NonlinearElasticityFbar.C:NonlinearElasticityFbar::evalInt", "FiniteDeformation/NonlinearElasticityULMX.C:NonlinearElasticityULMX::finalizeElement"]}
{"id": "C22", "title": "F-bar element data accept exactly perfect sampling grids", "statement": "The F-bar element data initialise successfully exactly when the number of sampling points is a perfect power of the space dimension, and then index every point once.", "quantifier": "all numbers of sampling points and dimensions", "why_tests_cant": "Rounding of a computed root only fails for particular integers.", "anchors": ["FiniteDeformation/NonlinearElasticityFbar.C:FbarElmData::init"]}
{"id": "C23", "title": "The mixed three-field Newton matrix and residual use one consistent DOF map", "statement": "The condensed displacement/pressure/volume Newton system places every block at positions that do not collide, covers all rows, is symmetric when its diagonal blocks are, and uses the same ordering as the residual vector.", "quantifier": "all element sizes (any number of displacement and pressure nodes), all block contents", "why_tests_cant": "Index collisions depend on element order; tests use one or two orders.", "anchors": ["FiniteDeformation/NonlinearElasticityULMixed.C:getNewtonMatrix", "FiniteDeformation/NonlinearElasticityULMixed.C:getRHSVector"]}
{"id": "C24", "title": "Follower tractions are pulled back with Nanson's formula", "statement": "The nodal load of a surface traction given per current area equals the traction times det(F)*F^-T applied to the reference normal area, and reduces to the given traction for F=I.", "quantifier": "all invertible F, normals, tractions", "why_tests_cant": "A tensor identity over all deformation states.", "anchors": ["FiniteDeformation/NonlinearElasticityTL.C:NonlinearElasticityTL::evalBou", "FiniteDeformation/NonlinearElasticityUL.C:NonlinearElasticityUL::evalBou"]}
{"id": "C25", "title": "Load gradients go to the load-gradient vector", "statement": "When the load gradient is requested (arc-length control) the body load is added to the external load vector and its gradient to the gradient vector, and neither vector receives the other's contribution.", "quantifier": "all load values and gradients, all formulations", "why_tests_cant": "Arc-length control still converges with a polluted load vector, to another equilibrium path.", "anchors": ["FiniteDeformation/NonlinearElasticityTL.C:NonlinearElasticityTL::evalInt", "FiniteDeformation/NonlinearElasticityUL.C:NonlinearElasticityUL::evalInt"]}
{"id": "C26", "title": "Geometric stiffness is linear in the stress", "statement": "The geometric stiffness of the continuum element is linear in the stress tensor, symmetric, and doubles when the stress doubles or changes sign when the stress does, also in axisymmetric mode.", "quantifier": "all stresses, all shape functions, any number of nodes", "why_tests_cant": "Sign dependence of one term shows only for compressive hoop stress.", "anchors": ["Elasticity/Elasticity.C:Elasticity::formKG"]}
{"id": "C27", "title": "Consistent mass and nodal loads carry the total mass and total load", "statement": "The consistent mass matrix is symmetric, non-negative, and for a rigid translation has exactly the integrated mass; the nodal loads from body forces and tractions sum to the reported total load, in all modes.", "quantifier": "all shape-function values summing to one, any number of nodes, all loads", "why_tests_cant": "Conservation over all elements and loads; a missing weight is invisible in planar tests.", "anchors": ["Elasticity/Elasticity.C:Elasticity::formMassMatrix", "Elasticity/Elasticity.C:Elasticity::formBodyForce", "Elasticity/Elasticity.C:Elasticity::evalBou"]}
{"id": "C28", "title": "Element matrices and vectors requested by a solution mode exist", "statement": "For every solution mode and every integrand, each matrix and vector slot that evaluation writes to has been allocated by the element container created for that mode.", "quantifier": "all solution modes, all integrand settings, all call sequences", "why_tests_cant": "The mode/slot table has hundreds of combinations; an out-of-range slot is undefined behaviour, not a failed assertion.", "anchors": ["Elasticity/ElasticBase.C:ElasticBase::setMode", "Elasticity/Elasticity.C:Elasticity::getLocalIntegral", "Elasticity/KirchhoffLove.C:KirchhoffLove::setMode", "Elasticity/KirchhoffLove.C:KirchhoffLove::getLocalIntegral", "Elasticity/LinearElasticity.C:LinearElasticity::initElement"]}
{"id": "C29", "title": "Buffered element matrices reproduce the assembled ones", "statement": "When left-hand-side matrices are buffered and reused, every later element gets back exactly the matrices stored for that element, and nothing is read when nothing was stored.", "quantifier": "all numbers of elements, all modes, all orders of element visits", "why_tests_cant": "Reuse order and mode switching are history dependent.", "anchors": ["Elasticity/LinearElasticity.C:LinearElasticity::initLHSbuffers", "Elasticity/LinearElasticity.C:LinearElasticity::initElement", "Elasticity/LinearElasticity.C:LinearElasticity::finalizeElement"]}
{"id": "C30", "title": "Result labels describe the values in their column", "statement": "For every component of the secondary solution the label returned for index i describes the value stored at index i, for all dimensions, materials and output options.", "quantifier": "all dimensions, output options, numbers of internal variables, all indices", "why_tests_cant": "Reference files compare numbers, not their meaning; the combination of options that swaps labels is rarely run.", "anchors": ["Elasticity/Elasticity.C:Elasticity::evalSol2", "Elasticity/Elasticity.C:Elasticity::getField2Name", "Elasticity/Elasticity.C:Elasticity::getNoFields"]}
{"id": "C31", "title": "Norm labels describe the integrated norm quantities", "statement": "For every norm group and index the label names the quantity accumulated at that index, with and without an analytical solution and for any number of extraction functions and projections; effectivity indices are formed from the energy and error entries they name.", "quantifier": "all option combinations, all indices", "why_tests_cant": "Off-by-one labels never fail numerically.", "anchors": ["Elasticity/Elasticity.C:ElasticityNorm::evalInt", "Elasticity/Elasticity.C:ElasticityNorm::getName", "Linear/KirchhoffLovePlate.C:KirchhoffLovePlateNorm::evalInt", "Linear/KirchhoffLovePlate.C:KirchhoffLovePlateNorm::evalBou"]}
{"id": "C32", "title": "Extreme-value reporting is schedule independent", "statement": "The extreme absolute value reported for a result component is the maximum over all evaluated points regardless of the order in which points (threads, patches) are visited.", "quantifier": "all orders of evaluation, any number of points", "why_tests_cant": "All interleavings.", "anchors": ["Elasticity/Elasticity.C:Elasticity::evalSol2"]}
{"id": "C33", "title": "Solution component names stay within the component set", "statement": "Asking for the name of any primary solution component, with or without prefix and in any mode, returns a name and never indexes outside the name table.", "quantifier": "all indices, prefixes and modes", "why_tests_cant": "The failing index is computed by unsigned subtraction in one mode only.", "anchors": ["Elasticity/Elasticity.C:Elasticity::getField1Name", "Elasticity/ElasticBase.C:ElasticBase::getField1Name"]}
{"id": "C34", "title": "Result dumps follow the requested save interval", "statement": "During a nonlinear simulation results are saved at the first converged step at or after each multiple of the save interval, never twice for one step, and the next save time is strictly later than the current time.", "quantifier": "all step sequences, save intervals, stop times", "why_tests_cant": "Depends on the accumulation of arbitrary step sizes.", "anchors": ["Elasticity/NonlinearDriver.C:NonlinearDriver::solveProblem"]}
{"id": "C35", "title": "Step cut-back restarts from the last converged state", "statement": "When an increment diverges the driver restores the previous converged solution and time before retrying with a smaller step, keeps doing so until convergence or refusal of further cut-backs, and never accepts a diverged state.", "quantifier": "all sequences of converge/diverge outcomes", "why_tests_cant": "A divergence pattern cannot be prescribed in an integration test.", "anchors": ["Elasticity/NonlinearDriver.C:NonlinearDriver::solveProblem"]}
{"id": "C36", "title": "Every exit status identifies its cause", "statement": "Each failure path of the nonlinear and dynamic drivers returns its own status; zero is returned only when all steps converged and all requested output was written.", "quantifier": "all outcome sequences of the steps and output calls", "why_tests_cant": "Combinations of simultaneous failures are not exercised.", "anchors": ["Elasticity/NonlinearDriver.C:NonlinearDriver::solveProblem", "Elasticity/NewmarkDriver.h:NewmarkDriver::solveProblem"]}
{"id": "C37", "title": "Arc-length control accepts only finite, converged states on the constraint", "statement": "The arc-length driver reports convergence only if the residual norm is below tolerance (never for NaN), the predictor satisfies the arc-length constraint exactly, and the corrector keeps the increment orthogonal to the tangent as specified.", "quantifier": "all iteration histories, all displacement and load increments, NaN and infinities included", "why_tests_cant": "NaN handling and constraint exactness are for-all statements.", "anchors": ["Elasticity/ArcLengthDriver.C:ArcLengthDriver::solveStep", "Elasticity/ArcLengthDriver.C:ArcLengthDriver::checkConvergence", "Elasticity/ArcLengthDriver.C:ArcLengthDriver::solveLinearizedSystem"]}
{"id": "C38", "title": "Rigid-body gaps are signed distances with unit normals", "statement": "For rigid spheres and cylinders the gap is the signed distance from the surface, the normal is the unit outward direction, and the geometric stiffness is symmetric, positive semi-definite and annihilates the normal.", "quantifier": "all positions, radii and configurations away from the centre/axis", "why_tests_cant": "A geometric identity over all points.", "anchors": ["FiniteDeformation/RigidBody.C:RigidSphere::evalGap", "FiniteDeformation/RigidBody.C:RigidCylinder::evalGap", "FiniteDeformation/RigidBody.C:RigidBody::geometricStiffness"]}
{"id": "C39", "title": "Contact forces on a rigid plane act at the projection of the contact point", "statement": "The weights distributing a contact force to the master points of a rigid plane sum to one and reproduce the projection of the slave point onto the plane.", "quantifier": "all plane configurations and all slave points", "why_tests_cant": "Wrong weights keep force balance and only break moment balance off the symmetric positions.", "anchors": ["FiniteDeformation/RigidBody.C:RigidPlane::evalGap"]}
{"id": "C40", "title": "Contact residual and tangent are self-equilibrated and translation invariant", "statement": "Contact forces on slave and master sum to zero, and the contact stiffness annihilates a common rigid translation of slave and master and is symmetric positive semi-definite for active points.", "quantifier": "all shape functions summing to one, any number of nodes and masters", "why_tests_cant": "An algebraic identity over all element sizes.", "anchors": ["FiniteDeformation/MortarContact.C:accResAndTangent", "FiniteDeformation/MortarContact.C:assResAndTangent"]}
{"id": "C41", "title": "The active contact set is a function of the current state", "statement": "A contact node is active exactly when its weighted gap (plus multiplier) indicates penetration, independent of how many times and in which order elements were assembled or the iteration was restarted.", "quantifier": "all assembly orders, all restart histories", "why_tests_cant": "Stale flags appear only on re-entry of an increment.", "anchors": ["FiniteDeformation/MortarContact.C:MortarContact::initIntegration", "FiniteDeformation/MortarContact.C:MortarContact::finalize", "FiniteDeformation/MortarContact.C:MortarContact::assemble"]}
{"id": "C42", "title": "The beam stiffness is symmetric, positive semi-definite and free of rigid-body strain energy", "statement": "The two-node beam stiffness matrix is symmetric, produces no force for all six rigid-body motions, and non-negative energy for every displacement, also after shear-centre and eccentricity transformations.", "quantifier": "all section stiffnesses, shear factors, lengths, eccentricities, all 12-component displacements", "why_tests_cant": "A matrix property over 12 unknowns and 10 parameters.", "anchors": ["Beam/ElasticBeam.C:ElasticBeam::getMaterialStiffness", "Beam/ElasticBeam.C:eccTransform", "Beam/ElasticBeam.C:shearTransform"]}
{"id": "C43", "title": "The beam geometric stiffness equilibrates the axial force", "statement": "The geometric stiffness is symmetric, vanishes for rigid translation and for a small rigid rotation yields exactly the transverse force couple of the axial force, with zero end moments.", "quantifier": "all axial forces, lengths and shear parameters", "why_tests_cant": "Exactness of coefficients is a polynomial identity.", "anchors": ["Beam/ElasticBeam.C:ElasticBeam::getGeometricStiffness"]}
{"id": "C44", "title": "The beam mass matrix has the rigid-body inertia of the beam", "statement": "Consistent and lumped beam mass matrices are symmetric and give total translational mass rho*A*L; the consistent one gives the exact rotary inertia about an end for rigid rotation; the weight from gravity sums to mass times gravity.", "quantifier": "all densities, areas, lengths, inertias, gravity vectors", "why_tests_cant": "A conservation identity over all parameters.", "anchors": ["Beam/ElasticBeam.C:ElasticBeam::getMassMatrix", "Beam/ElasticBeam.C:ElasticBeam::evalInt"]}
{"id": "C45", "title": "Beam section input gives geometrically valid properties", "statement": "For pipes and boxes the computed area and inertias equal the integrals over the actual cross section and are positive for valid wall thicknesses; a constant property function gives the same stiffness and mass as the constant.", "quantifier": "all radii, sizes and wall thicknesses", "why_tests_cant": "Invalid thickness silently gives wrong or negative values.", "anchors": ["Beam/BeamProperty.C:BeamProperty::parsePipe", "Beam/BeamProperty.C:BeamProperty::parseBox", "Beam/BeamProperty.C:BeamProperty::eval"]}
{"id": "C46", "title": "Bar internal forces and tangent derive from one strain energy", "statement": "For each strain measure the bar's nodal forces are the gradient of a strain energy, sum to zero and are objective; the tangent is their exact derivative; material and geometric parts are separately translation invariant.", "quantifier": "all bar positions, stiffnesses, strain measures", "why_tests_cant": "Tangent exactness over all configurations.", "anchors": ["Beam/ElasticBar.C:ElasticBar::evalInt"]}
{"id": "C47", "title": "Bar mass does not couple directions", "statement": "A bar's mass matrix accelerates each direction independently and carries the total mass line-mass times length.", "quantifier": "all bar masses and accelerations", "why_tests_cant": "Cross-coupling between directions is invisible in axial tests.", "anchors": ["Beam/ElasticBar.C:ElasticBar::evalInt"]}
{"id": "C48", "title": "Cable strain and curvature derivatives are exact", "statement": "The first and second derivatives of axial strain and of the unit normal used for the cable's forces and tangent are the derivatives of the quantities themselves.", "quantifier": "all configurations, any number of nodes", "why_tests_cant": "Derivative exactness over all curves.", "anchors": ["Beam/ElasticCable.C:ElasticCable::evalInt"]}
{"id": "C49", "title": "End moments on cables are pure couples and their load stiffness is exact", "statement": "A concentrated end moment is applied as a force couple with zero resultant and the given moment, and the load-correction stiffness is minus the derivative of that load, at both ends.", "quantifier": "all end configurations, both ends", "why_tests_cant": "A sign at one end only affects convergence speed.", "anchors": ["Beam/ElasticCable.C:ElasticCable::evalBou"]}
{"id": "C50", "title": "The plate formulations give the plate bending energy", "statement": "The three plate stiffness versions return the quadratic forms they document: full isotropic bending energy, and its two constant-D tensor forms, which coincide up to the Gaussian-curvature term; all are symmetric and non-negative.", "quantifier": "all curvatures, thicknesses, moduli, any number of nodes", "why_tests_cant": "A quadratic-form identity.", "anchors": ["Linear/KirchhoffLovePlate.C:KirchhoffLovePlate::evalK1", "Linear/KirchhoffLovePlate.C:KirchhoffLovePlate::evalK2", "Linear/KirchhoffLovePlate.C:KirchhoffLovePlate::formBmatrix"]}
{"id": "C51", "title": "Rigid motions of a shell cause no strain", "statement": "Membrane strains and curvatures of the linear shell vanish for every infinitesimal rigid motion, on every curved geometry whose parametric area element exceeds the normalisation tolerance, and for every element size.", "quantifier": "all surface geometries, all infinitesimal rigid motions, any number of nodes", "why_tests_cant": "Tests on single geometries cannot exclude curvature-dependent spurious strain.", "anchors": ["Shell/KirchhoffLoveShell.C:KirchhoffLoveShell::formBmatrix", "Shell/KirchhoffLoveShell.C:KirchhoffLoveShell::getMetrics"]}
{"id": "C52", "title": "Recovered shell moments agree with the moments used for equilibrium", "statement": "The moments recovered for output are those used in the internal forces; in particular a rigid rotation recovers zero moments in the nonlinear shell, and top/bottom stresses carry the sign belonging to their surface for linear and nonlinear shells.", "quantifier": "all deformations including finite rotations", "why_tests_cant": "Recovery is post-processing; equilibrium tests do not see it.", "anchors": ["Shell/NLKirchhoffLoveShell.C:NLKirchhoffLoveShell::evalSol", "Shell/NLKirchhoffLoveShell.C:NLKirchhoffLoveShell::evalKandS", "Shell/KirchhoffLoveShell.C:KirchhoffLoveShell::evalSol"]}
{"id": "C53", "title": "The nonlinear shell tangent is the derivative of its strains", "statement": "First and second variations of membrane strain and of the unit normal used in the nonlinear shell are the exact derivatives.", "quantifier": "all metrics and variations", "why_tests_cant": "Derivative exactness over all configurations.", "anchors": ["Shell/NLKirchhoffLoveShell.C:NLKirchhoffLoveShell::evalKandS"]}
{"id": "C54", "title": "Line loads are applied exactly once", "statement": "A line load along an element border in a plate contributes its full resultant, whether the border is interior or on the patch boundary.", "quantifier": "all knot grids, line positions and ranges", "why_tests_cant": "Half-weighting relies on both neighbours being visited.", "anchors": ["Shell/SIMKLShell.C:ElmBorderChk::maskBorder", "Linear/KirchhoffLovePlate.C:KirchhoffLovePlate::evalInt"]}
{"id": "C55", "title": "Analytical stress fields are in equilibrium and satisfy their boundary conditions", "statement": "The closed-form 2D reference solutions (plate with hole, cantilever, curved beam, heated pipe) satisfy the equilibrium equations at every point of the domain and the traction-free conditions on the stated boundaries.", "quantifier": "all points of the domain, all parameters", "why_tests_cant": "A reference solution is trusted by the tests themselves; it must be settled independently for all points.", "anchors": ["Linear/AnalyticSolutions.C:Hole", "Linear/AnalyticSolutions.C:CanTS", "Linear/AnalyticSolutions.C:CurvedBeam", "Linear/AnalyticSolutions.C:Pipe"]}
{"id": "C56", "title": "Plate reference solutions satisfy the plate equations", "statement": "The series solution's moment derivatives are the exact derivatives of the moments and every double-index term within the cut-off is summed once; the circular-plate solution satisfies moment equilibrium and its deflection gives its moments.", "quantifier": "all points, parameters, cut-offs", "why_tests_cant": "Reference solutions are not themselves tested.", "anchors": ["Linear/AnalyticSolutions.C:NavierPlate::addTerms", "Linear/AnalyticSolutions.C:NavierPlate::evaluate", "Linear/AnalyticSolutions.C:CircularPlate"]}
{"id": "C57", "title": "Command-line formulation options are order independent", "statement": "Selecting a finite-deformation formulation on the command line gives the most specific formulation requested, whatever the order of the options.", "quantifier": "all option sequences", "why_tests_cant": "Permutations of options.", "anchors": ["NLargs.C:NLargs::parseArg", "FiniteDeformation/NLoptions.C:NLoptions::parse"]}
{"id": "C58", "title": "Local coordinate systems are orthonormal and right-handed", "statement": "Cylindrical and spherical result systems return proper orthonormal transformations at every point where they are defined, also on the axis and at poles.", "quantifier": "all points", "why_tests_cant": "Degenerate positions are measure zero for random tests.", "anchors": ["Elasticity/LocalSystems.C"]}
{"id": "C59", "title": "Texture-based material lookup is total and well-defined", "statement": "A material selected from an image is the first listed intensity range containing the pixel, the pixel index is always inside the image for parameters in [0,1], and the default is used otherwise.", "quantifier": "all images, ranges, parameter values", "why_tests_cant": "Boundary pixels and overlapping ranges.", "anchors": ["Elasticity/IsotropicTextureMat.C:IsotropicTextureMat::findMaterial"]}
{"id": "C60", "title": "Boundary reactions are those of the requested boundary", "statement": "Asking for the reaction of boundary i (one-based) returns the resultant of boundary i, and fails for indices that do not exist; forces summed over sections equal the sum over the union of nodes, and the total reaction force counts every supported node once.", "quantifier": "all boundary counts and indices, all node sets", "why_tests_cant": "Off-by-one between header contract and code.", "anchors": ["Elasticity/SIMElasticity.C:getBoundaryReactions", "Elasticity/SIMElasticity.C:printBoundaryForces"]}
{"id": "C61", "title": "The reaction reference point is independent of node order", "statement": "The automatic moment reference point is determined by the set of boundary nodes only.", "quantifier": "all node sets and visiting orders", "why_tests_cant": "Permutations of nodes.", "anchors": ["Elasticity/SIMElasticity.C:preprocessB"]}
{"id": "C62", "title": "Material and section look-up never reads an empty table", "statement": "Selecting the material of a patch works for every patch index, also if fewer materials than patches were given, or none.", "quantifier": "all table sizes and indices", "why_tests_cant": "Unsigned wrap-around on the empty table.", "anchors": ["Elasticity/SIMElasticity.C:initMaterial", "Shell/SIMKLShell.C:SIMKLShell::initMaterial", "Linear/SIMLinElBeamC1.C:SIMLinElBeamC1::initMaterial"]}
{"id": "C63", "title": "Rigid couplings preserve rigid motion", "statement": "Constraint equations generated for rigid couplings reproduce the displacement of every slave node under an arbitrary small rigid motion of the master.", "quantifier": "all node positions and rigid motions", "why_tests_cant": "An identity over all geometries.", "anchors": ["Elasticity/SIMRigid.C"]}
{"id": "C64", "title": "Visualisation dumps are numbered uniquely", "statement": "Within a simulation each saved step gets a distinct, increasing dump number and exactly the steps that are multiples of the save increment are dumped.", "quantifier": "all step counts and save increments", "why_tests_cant": "Unbounded sequences of steps.", "anchors": ["Elasticity/SIMElasticityWrap.C:saveStep"]}
{"id": "C65", "title": "Graded beam knots are valid", "statement": "The mid-point focused knot generator yields strictly increasing interior knots, symmetric about the mid-point, for any number of levels.", "quantifier": "all numbers of levels", "why_tests_cant": "Unbounded refinement level.", "anchors": ["Linear/SIMLinElBeamC1.C:SIMLinElBeamC1::parseXi"]}
{"id": "C66", "title": "Modal simulations return to the full equation system after every step", "statement": "Whatever number of iterations each step takes, after the solution of a step has been expanded the full equation system is active, and modal solves only happen on the modal system.", "quantifier": "all sequences of steps and iteration counts", "why_tests_cant": "A parity property of an unbounded call sequence.", "anchors": ["Linear/SIMLinElModal.h:assembleSystem", "Linear/SIMLinElModal.h:expandSolution", "Linear/SIMLinKLModal.C:SIMLinKLModal::assembleSystem"]}
{"id": "C67", "title": "Beam elements interpret their element data as created", "statement": "The element data object allocated for a beam element is of the kind the beam later assumes when reading its local axes, for every sequence of solution modes.", "quantifier": "all sequences of mode changes", "why_tests_cant": "A wrong static cast after a particular mode sequence is undefined behaviour.", "anchors": ["Beam/ElasticBeam.C:ElasticBeam::getLocalIntegral", "Beam/ElasticBeam.C:ElasticBeam::getLocalAxes"]}
{"id": "C68", "title": "Hyperelastic stress and tangent derive from the stored energy", "statement": "The Cauchy stress returned by the hyperelastic material is the derivative of its returned energy density, and the returned tangent is the spatial derivative of that stress, at every deformation gradient with positive determinant.", "quantifier": "all material versions, all parameters, all deformation gradients, all directions", "why_tests_cant": "Derivative identities over a nine-dimensional continuum; a small error only degrades Newton convergence.", "anchors": ["FiniteDeformation/NeoHookeMaterial.C:stdNeoHooke", "FiniteDeformation/NeoHookeMaterial.C:modNeoHooke"]}
{"id": "C69", "title": "Hyperelastic evaluation stays inside its matrices", "statement": "Evaluating the hyperelastic material writes only inside the constitutive matrix it has sized, in two and three dimensions.", "quantifier": "all dimensions, stress component counts and material versions", "why_tests_cant": "Out-of-bounds writes usually go unnoticed.", "anchors": ["FiniteDeformation/NeoHookeMaterial.C:stdNeoHooke", "FiniteDeformation/NeoHookeMaterial.C:modNeoHooke"]}
{"id": "C70", "title": "Yield-function derivatives are exact", "statement": "The partial derivatives of the yield function with respect to the stress invariants reported by the plastic material are its derivatives.", "quantifier": "all yield criteria, parameters and stress states away from zero deviatoric stress", "why_tests_cant": "Derivative identities over a continuum.", "anchors": ["FiniteDeformation/PlasticMaterial.C:PlasticMaterial::PlasticPoint::yfunc"]}
{"id": "C71", "title": "The return mapping uses a true Newton correction", "statement": "The correction computed in each local return-mapping iteration reduces every residual component at unit rate: the derivative of the residual along the correction is minus the residual.", "quantifier": "all stress states, hardening laws, yield criteria, with and without kinematic hardening", "why_tests_cant": "A wrong Jacobian still converges for mild data.", "anchors": ["FiniteDeformation/PlasticMaterial.C:PlasticMaterial::PlasticPoint::evaluate"]}
{"id": "C72", "title": "The plastic tangent is rotated energy-consistently", "statement": "The tangent computed in the principal directions is transformed to the global axes such that every strain has the same quadratic form in both frames, and stays symmetric.", "quantifier": "all principal directions, all tangents, all strains", "why_tests_cant": "Identity over a continuum of frames.", "anchors": ["FiniteDeformation/PlasticMaterial.C:PlasticMaterial::PlasticPoint::evaluate"]}
{"id": "C73", "title": "The reported strain energy of a plastic material depends only on the state for an elastic law", "statement": "For a material that responds elastically the strain energy reported by the plastic material does not depend on how the deformation was divided into increments.", "quantifier": "all strain paths with varying volume", "why_tests_cant": "Path independence quantifies over all paths.", "anchors": ["FiniteDeformation/PlasticMaterial.C:PlasticMaterial::evaluate", "FiniteDeformation/PlasticMaterial.C:PlasticMaterial::PlasticPoint::energyIntegral"]}
{"id": "C74", "title": "Axisymmetric total Lagrangian strain includes the large-displacement hoop strain", "statement": "In an axisymmetric total Lagrangian analysis the hoop strain is ((1+u_r/r)^2-1)/2 and the strain-displacement matrix is its exact linearisation, for elements of every size and position.", "quantifier": "all radii, displacements, element sizes and numbers of nodes", "why_tests_cant": "The finite-displacement term is invisible at small load; quantifies over all radii and displacements.", "anchors": ["FiniteDeformation/NonlinearElasticityTL.C:NonlinearElasticityTL::kinematics", "Elasticity/Elasticity.C:Elasticity::formBmatrix"]}
{"id": "C75", "title": "The three-field element's coupling blocks are the exact linearisation of its residuals", "statement": "The coupling stiffness blocks between displacements, volume change and pressure are minus the derivative of the volume-change and pressure residuals the same element assembles, in 2D, axisymmetric and 3D, for every state including the undeformed one.", "quantifier": "all deformation states, volume changes, pressures, all numbers of displacement and pressure nodes", "why_tests_cant": "A wrong linearisation still converges on easy problems; the claim is over all states.", "anchors": ["FiniteDeformation/NonlinearElasticityULMixed.C:NonlinearElasticityULMixed::evalIntMx"]}
{"id": "C76", "title": "The mixed-form constitutive matrix is the deviatoric/volumetric projection of the tangent", "statement": "The 7x7 constitutive matrix of the mixed formulations equals the Simo-Taylor projection of the 6x6 tangent with the pressure terms added, and is symmetric whenever the tangent is.", "quantifier": "all tangents, stresses and pressures, all 49 entries", "why_tests_cant": "49 entries over a continuum of states.", "anchors": ["FiniteDeformation/MixedTanMat.C:MixedMat::addVolumetricTerms"]}
{"id": "C77", "title": "The mixed stiffness kernels equal B^T D B with the extended strain operator", "statement": "The compiled kernels that form the mixed-formulation element stiffness add exactly B^T D B, where B has the six strain rows and the volume-change row, for plane, axisymmetric and spatial elements with any number of nodes.", "quantifier": "all 7x7 matrices D, all shape-function gradients, all numbers of nodes", "why_tests_cant": "Identity over all matrices and element sizes.", "anchors": ["FiniteDeformation/accKMx.f:accKMx2D", "FiniteDeformation/accKMx.f:accKMx3D"]}
{"id": "C78", "title": "External energy of the updated Lagrangian norm is the work of the tractions along the load history", "statement": "For every sequence of boundary tractions and displacements the accumulated external energy is the trapezoidal work from rest along that sequence; evaluating the norms again without a change in configuration adds nothing; for tractions that are a symmetric linear function of the displacement it only depends on the last displacement.", "quantifier": "all histories of any length, all tractions and displacements", "why_tests_cant": "A test sees one load history and cannot show independence of the path.", "anchors": ["FiniteDeformation/NonlinearElasticityUL.C:ElasticityNormUL::evalBou"]}
{"id": "C79", "title": "Bending about a local axis uses the section's stiffness about that axis", "statement": "For a beam whose section properties are given about its local axes, bending about an axis has the stiffness E times the second moment about that axis, the one that also enters the rotary inertia of the same motion.", "quantifier": "all cross sections, lengths and end rotations", "why_tests_cant": "Tests with equal moments about both axes cannot see it; quantifies over all sections.", "anchors": ["Beam/ElasticBeam.C:ElasticBeam::getMaterialStiffness", "Beam/ElasticBeam.C:ElasticBeam::getMassMatrix", "Beam/BeamProperty.h:BeamProperty"]}
{"id": "C80", "title": "Recovered cable forces do not depend on the parametrisation", "statement": "The axial force and bending moment reported for a cable are unchanged when the same curve with the same displacement is described by a differently scaled parameter.", "quantifier": "all curves, displacements and parameter scalings", "why_tests_cant": "A test uses one mesh, for which the parameter may happen to have unit speed.", "anchors": ["Beam/ElasticCable.C:ElasticCable::evalSol"]}
{"id": "C81", "title": "Bars with fewer than three unknowns per node keep each node's components", "statement": "When a bar element is used with one or two displacement components per node, the element vectors and matrices passed on contain exactly the entries of those components, node by node.", "quantifier": "all numbers of nodes, all element matrices and vectors", "why_tests_cant": "An index error would mix entries of different nodes only for certain sizes.", "anchors": ["Beam/ElasticBar.C:ElasticBar::finalizeElement"]}
{"id": "C82", "title": "Recovered plate moments and shear forces are those of the bent plate", "statement": "The moments recovered for a plate are the first moments over the thickness of the plane-stress stresses of the bent layers, and the recovered shear forces are in moment equilibrium with the recovered moments.", "quantifier": "all deflections, thicknesses and moduli, any number of nodes", "why_tests_cant": "Equilibrium and the integral are statements about all fields.", "anchors": ["Linear/KirchhoffLovePlate.C:KirchhoffLovePlate::evalSol"]}
{"id": "C83", "title": "Distributed plate and shell loads and masses have the right resultant", "statement": "A pressure or gravity load gives nodal loads weighted by the shape functions whose sum is the load that is reported as total; the mass matrix gives the kinetic energy of the interpolated velocity with the mass per area.", "quantifier": "all pressures, normals, shape functions, element sizes and both numbers of unknowns per node", "why_tests_cant": "Identities over all fields and element sizes.", "anchors": ["Elasticity/KirchhoffLove.C:KirchhoffLove::getPressure", "Elasticity/KirchhoffLove.C:KirchhoffLove::formBodyForce", "Elasticity/KirchhoffLove.C:KirchhoffLove::formMassMatrix"]}
{"id": "C84", "title": "The one-dimensional plate has the same rigidity in all formulations", "statement": "For a plate strip modelled in one dimension the choice of formulation version does not change the bending stiffness.", "quantifier": "all moduli, Poisson ratios and thicknesses", "why_tests_cant": "Tests with zero Poisson ratio do not see the difference.", "anchors": ["Linear/KirchhoffLovePlate.C:KirchhoffLovePlate::evalK1", "Linear/KirchhoffLovePlate.C:KirchhoffLovePlate::evalK2"]}
{"id": "C85", "title": "The shell energy is that of the isotropic shell on any parametrisation", "statement": "The stiffness matrix of the linear shell gives the metric-invariant isotropic membrane and bending energy of the surface, so it does not depend on the parametrisation; the nonlinear shell linearised at the undeformed state is the linear shell.", "quantifier": "all surfaces with regular metric, all displacements, any number of nodes", "why_tests_cant": "Tests use few, often orthogonal, parametrisations.", "anchors": ["Shell/KirchhoffLoveShell.C:KirchhoffLoveShell::evalK", "Shell/KirchhoffLoveShell.C:KirchhoffLoveShell::getMetrics", "Shell/NLKirchhoffLoveShell.C:NLKirchhoffLoveShell::evalKandS"]}
{"id": "C86", "title": "Plate and flat shell report the same moments", "statement": "For the same deflection a plate and a flat shell of the same material and thickness report the same moments.", "quantifier": "all deflections, materials and thicknesses", "why_tests_cant": "Tests of each solver use their own sign convention.", "anchors": ["Linear/KirchhoffLovePlate.C:KirchhoffLovePlate::evalSol", "Shell/KirchhoffLoveShell.C:KirchhoffLoveShell::evalSol"]}
{"id": "C87", "title": "The heated-pipe reference solution satisfies thermoelasticity", "statement": "The analytical stresses of the heated pipe belong to a displacement field under plane-strain thermoelasticity with the stated conduction temperature, so that a converged analysis can approach them.", "quantifier": "all pipe dimensions, temperatures and material constants, all radii", "why_tests_cant": "The reference solution is what the tests compare against; a wrong factor is invisible if the code under test shares it.", "anchors": ["Linear/AnalyticSolutions.C:Pipe::Pipe", "Linear/AnalyticSolutions.C:Pipe::evaluate"]}
{"id": "C88", "title": "Shell thickness functions apply to the patches they are assigned to", "statement": "A thickness function or constant given for a patch group in the input determines the shell thickness at every point of those patches and of no other, independently of the order in which patches are processed.", "quantifier": "all assignments of materials and thicknesses to patches, all processing orders", "why_tests_cant": "Depends on the coincidence of two index spaces and on the processing history.", "anchors": ["Shell/SIMKLShell.C:SIMKLShell::parse", "Shell/SIMKLShell.C:SIMKLShell::initMaterial"]}
{"id": "C89", "title": "Projected results have storage whenever they are accessed", "statement": "In every simulation program, for every combination of projection, visualisation and save options, a time or load step never accesses the storage of the projected solution unless it has been allocated.", "quantifier": "all programs, options and sequences of saved and unsaved steps", "why_tests_cant": "Front of an empty container is undefined behaviour that shows up only for particular option combinations and step sequences.", "anchors": ["Elasticity/NonlinearDriver.C:NonlinearDriver::solveProblem", "Elasticity/NewmarkDriver.h:solveProblem", "Linear/DynamicDriver.C:dynamicSim", "Linear/MultiLoadCaseDriver.C:mlcSim", "main_NonLinEl.C:runSimulator"]}
{"id": "C90", "title": "A failing simulation gives a non-zero exit code", "statement": "Each program terminates with exit code zero if and only if reading, preprocessing, solution and all requested output succeeded.", "quantifier": "all combinations of failing stages and all driver statuses", "why_tests_cant": "Requires every failing path of every program.", "anchors": ["main_LinEl.C:main", "main_NonLinEl.C:runSimulator", "main_ShellEl.C:main"]}
{"id": "C91", "title": "Result files are named after the input file", "statement": "Geometry, deformation, solution and grid files are written next to the input file, with the name of the input file and a new extension.", "quantifier": "all input file names", "why_tests_cant": "Infinitely many file names; the failing ones write outside the working directory or past the end of a buffer.", "anchors": ["main_LinEl.C:main", "main_NonLinEl.C:runSimulator"]}
{"id": "C92", "title": "Everything allocated by the linear program is released once", "statement": "On every termination path each heap object created by the linear program is deleted exactly once, so that files held open by it are closed.", "quantifier": "all termination paths", "why_tests_cant": "Leaks are not visible in results.", "anchors": ["main_LinEl.C:main"]}
{"id": "C93", "title": "Expanding nodal vectors keeps the nodal values", "statement": "When the number of components per node of a projected reference solution is increased, each node keeps its old components and the new ones are zero.", "quantifier": "all vectors, numbers of nodes and numbers of components", "why_tests_cant": "An in-place copy whose aliasing depends on the sizes.", "anchors": ["main_LinEl.C:main"]}
{"id": "C94", "title": "The adaptive option is honoured by all quasi-static solvers", "statement": "When adaptive mesh refinement is requested, the quasi-static driver chosen by the program is adaptive.", "quantifier": "all programs and solver choices", "why_tests_cant": "A positional argument bound to the wrong parameter compiles silently.", "anchors": ["main_NonLinEl.C:main", "main_ShellEl.C:main", "Elasticity/ArcLengthDriver.C:ArcLengthDriver"]}
{"id": "C95", "title": "Restart output never overwrites an existing restart file", "statement": "The name chosen for the restart file is that of no existing file, and a name is always found.", "quantifier": "all input file names and all sets of existing files", "why_tests_cant": "A search loop over an unbounded set of files.", "anchors": ["main_NonLinEl.C:runSimulator", "main_ShellEl.C:runSimulator", "Linear/DynamicDriver.C:dynamicSim", "Linear/ModalDriver.C:modalSim"]}
{"id": "C96", "title": "Every point load acts once, and only where loads are needed", "statement": "Each concentrated load given in the input is added exactly once, with its value at the current time, to the external load vector in its node or distributed by the basis functions of its element, and to no other vector; analyses that need no load vector ignore the point loads.", "quantifier": "all numbers and kinds of point loads, analysis modes and numbers of load vectors", "why_tests_cant": "The tests use one or two loads in static analyses; the failing combinations (eigenvalue analysis with point loads, moments on elements) are not run.", "anchors": ["Beam/SIMElasticBar.C:SIMElasticBar::assembleDiscreteTerms", "Shell/SIMKLShell.C:SIMKLShell::assembleDiscreteTerms", "Linear/SIMLinElBeamC1.C:SIMLinElBeamC1::assembleDiscreteTerms", "Beam/SIMElastic1D.C:SIMElastic1D::assemblePoint", "Elasticity/ElasticBase.C:ElasticBase::evalPoint", "Elasticity/KirchhoffLove.C:KirchhoffLove::evalPoint"]}
{"id": "C97", "title": "The point load gradient is the derivative of the point loads", "statement": "In arc-length analyses the load gradient vector receives the time derivative of what the point loads add to the load vector.", "quantifier": "all differentiable load functions and numbers of loads", "why_tests_cant": "A wrong gradient changes the path followed, not the converged states.", "anchors": ["Beam/SIMElasticBar.C:SIMElasticBar::assembleDiscreteTerms", "Shell/SIMKLShell.C:SIMKLShell::assembleDiscreteTerms"]}
{"id": "C98", "title": "The external energy contains the work of the point loads", "statement": "The part of the external energy due to the point loads is the work of the assembled point load vector over the displacements.", "quantifier": "all point loads and displacement vectors", "why_tests_cant": "The energy is only printed and compared with recorded output of the same code.", "anchors": ["Shell/SIMKLShell.C:SIMKLShell::externalEnergy", "Linear/SIMLinElBeamC1.C:SIMLinElBeamC1::externalEnergy", "Beam/SIMElasticBar.h:SIMElasticBar"]}
{"id": "C99", "title": "Load points are resolved when the model is set up", "statement": "Setting up the model succeeds exactly if every load point can be resolved, and then each load acts on the element at its point if that is allowed, else in the node there, else in the closest node.", "quantifier": "all load points, patches and meshes", "why_tests_cant": "The tests only use load points on existing patches.", "anchors": ["Beam/SIMElastic1D.C:SIMElastic1D::findLoadPoint", "Beam/SIMElasticBar.C:SIMElasticBar::preprocessB", "Shell/SIMKLShell.C:SIMKLShell::preprocessB", "Linear/SIMLinElBeamC1.C:SIMLinElBeamC1::preprocessB"]}
{"id": "C100", "title": "Every loaded boundary gets the traction specified for it", "statement": "Whatever boundaries were visited before, in this or earlier assembly passes, the traction used on a boundary is the function specified for that boundary.", "quantifier": "all sets of boundary functions of both kinds and all visiting sequences", "why_tests_cant": "The tests apply functions of one kind only; the error appears when both kinds are used in one model.", "anchors": ["Elasticity/SIMElasticity.C:SIMElasticity::initNeumann", "Elasticity/Elasticity.h:Elasticity::setTraction", "Elasticity/Elasticity.C:Elasticity::getTraction", "Elasticity/KirchhoffLove.h:KirchhoffLove::setTraction", "Shell/SIMKLShell.C:SIMKLShell::initNeumann"]}
{"id": "C101", "title": "All boundary conditions taken from the analytical solution are imposed", "statement": "Every displacement or traction condition that refers to the analytical solution is imposed if the solution has the field needed.", "quantifier": "all lists of boundary properties", "why_tests_cant": "The tests have at most one such displacement condition.", "anchors": ["Elasticity/SIMElasticity.C:SIMElasticity::preprocessA", "Linear/SIMLinElKL.C:SIMLinElKL::preprocessA"]}
{"id": "C102", "title": "Pressures act on the patches they are assigned to", "statement": "The pressure functions in effect on a patch are the common one and those assigned to that patch, each once, whatever patches were visited before.", "quantifier": "all assignments and visiting sequences", "why_tests_cant": "State carried over between patches depends on the visiting sequence.", "anchors": ["Shell/SIMKLShell.C:SIMKLShell::initBodyLoad", "Linear/SIMLinElBeamC1.C:SIMLinElBeamC1::initBodyLoad", "Elasticity/KirchhoffLove.C:KirchhoffLove::setPressure"]}
{"id": "C103", "title": "Every slave boundary node has exactly one contact multiplier of its own", "statement": "In an augmented Lagrange contact analysis the multipliers of the contact elements are given by one injective numbering of the slave boundary nodes, shared between elements and patches, listed in the elements' node sequence, and using exactly the numbers following the existing nodes.", "quantifier": "all sets of contact elements over any number of patches", "why_tests_cant": "The tests have a few elements on one patch; uniqueness over shared nodes concerns all meshes.", "anchors": ["FiniteDeformation/SIMContact.C:SIMContact::addLagrangeMultipliers"]}
{"id": "C104", "title": "A rigid contact body is set up as specified, independently of the sequence of its specification", "statement": "All boundary conditions given for a rigid body act on it from all its slave boundaries, its radius is the one given for it or else the default, and every body with a slave boundary takes part in the contact.", "quantifier": "all sequences of body specifications", "why_tests_cant": "The tests use one conventional ordering of the input.", "anchors": ["FiniteDeformation/SIMContact.C:SIMContact::parseContactTag", "FiniteDeformation/SIMContact.C:SIMContact::preprocessContact"]}
{"id": "C105", "title": "The plastic tangent is the derivative of the stress", "statement": "If the principal trial stretches are equal or differ by more than the tolerance, the material tangent gives, for every superposed deformation, the convected rate of the Kirchhoff stress per current volume, where the rates of the principal stresses are those of the solution of the local problem (plastic step) or of Hencky's law (elastic step); the Cauchy stress has the trial principal directions.", "quantifier": "all principal directions, stretches, stresses, deformation rates and differentiable families of solutions, with or without kinematic hardening", "why_tests_cant": "Tests only observe convergence for some load cases; an inconsistent tangent just converges slower.", "anchors": ["FiniteDeformation/PlasticMaterial.C:PlasticMaterial::PlasticPoint::evaluate"]}
{"id": "C106", "title": "Reported mean stress, triaxiality and Lode parameter have their defined meaning", "statement": "The mean stress is a third of the sum of the principal stresses, triaxiality is its ratio to the von Mises stress, and the Lode parameter is in [-1,1] with the extremes for two equal principal stresses; all are zero where undefined and the ratios do not depend on the stress level.", "quantifier": "all stress states and dimensions", "why_tests_cant": "Bounds and invariances over a continuum; no test checks these outputs in two dimensions.", "anchors": ["FiniteDeformation/PlasticMaterial.C:PlasticMaterial::ResultPoint::principalStress", "FiniteDeformation/PlasticMaterial.C:PlasticMaterial::ResultPoint::getTriax", "FiniteDeformation/PlasticMaterial.C:PlasticMaterial::ResultPoint::getLode"]}
{"id": "C107", "title": "Axisymmetric strains and stretches agree, on the axis too", "statement": "In axisymmetric analyses the strain-displacement matrix gives the radial, axial, hoop and shear strains of the interpolated field, the hoop strain being u_r/r and its limit du_r/dr on the axis; points at negative radius are rejected; and the stretches of the deformation gradient are one plus these strains at every radius.", "quantifier": "all radii, displacements, shape functions and numbers of nodes", "why_tests_cant": "The axis is a measure-zero case no regression test places a result point on with finite deformations.", "anchors": ["Elasticity/Elasticity.C:Elasticity::formBmatrix", "Elasticity/Elasticity.C:Elasticity::formDefGradient"]}
{"id": "C108", "title": "A condensed superelement has its own superelement and recovery files", "statement": "The superelement file and the recovery file written by a static condensation are two different files next to each other, and superelements with different names never share a recovery file.", "quantifier": "all file names", "why_tests_cant": "Depends on where dots occur in the path; tests use one name.", "anchors": ["Linear/SIMLinEl.h:SIMLinEl::parse", "main_LinEl.C:main"]}
{"id": "C109", "title": "Stresses in superelements are evaluated with the model and materials of the superelement", "statement": "When secondary results are written for a model with superelements, every superelement gets exactly one result block per component, attached to its geometry, with as many values as geometry points; each value is evaluated with the FE model and the material of the patch it belongs to.", "quantifier": "all numbers of superelements, FE models, patches, materials and components", "why_tests_cant": "The only superelement test has a single model; needs two models with different materials.", "anchors": ["Linear/SIMLinElSup.C:SIMLinElSup::writeGlvS2", "Linear/SIMLinElSup.C:SIMLinElSup::getMyProblem", "Linear/SIMLinElSup.C:SIMLinElSup::tesselatePatch", "Linear/SIMLinElSup.C:SIMLinElSup::parse"]}
{"id": "C110", "title": "The requested superelement is condensed to the nodes of all its retained sets", "statement": "With -staticCond <id> exactly the model blocks not belonging to another superelement are read; the retained nodes are those of all topology sets given, in increasing sequence, an invalid set is an error, and an unknown identifier is reported.", "quantifier": "all input files, identifiers and topology sets", "why_tests_cant": "Quantifies over all block sequences and sets.", "anchors": ["Linear/SIMLinEl.h:SIMLinEl::parse", "Linear/SIMLinEl.h:SIMLinEl::preprocessB"]}
{"id": "C111", "title": "Bars, cables and beams get the stiffness and mass of the section and material given", "statement": "Area and second moment given, or those of the pipe given, determine axial stiffness, bending stiffness and mass per length; explicit stiffnesses replace the products and explicit mass the mass; a cable is a cable whatever tag is used; the shear modulus of a beam follows from modulus of elasticity and Poisson's ratio.", "quantifier": "all combinations of attributes, tags and types, and all values", "why_tests_cant": "The attributes interact; tests give one combination each.", "anchors": ["Beam/SIMElasticBar.C:SIMElasticBar::parse", "Beam/SIMElasticBar.C:SIMElasticBar::getBarIntegrand", "Beam/BeamProperty.C:BeamProperty::parsePipe"]}
{"id": "C112", "title": "Section data files are read as comma separated tables", "statement": "Each line of a section data file gives a label, a unit and values; the values are converted from the unit to metres, empty cells stay empty, blank lines are ignored, and each property has the values of its own line whatever the sequence of the lines.", "quantifier": "all files, numbers of lines and columns and all units of length", "why_tests_cant": "Quantifies over all files; the only test file has no empty cells.", "anchors": ["Beam/BeamProperty.C:BeamProperty::readCSV"]}
{"id": "C113", "title": "Internal forces of the mixed element are the derivative of its strain energy", "statement": "With the internal pressure modes of the mixed updated Lagrangian formulation, the internal forces returned by an element are the derivative of the strain energy in which the volume change of every integration point is replaced by its projection on the modes, for any hyperelastic material, in solids, plane strain and axisymmetric solids.", "quantifier": "all elements, numbers of nodes, points and modes, materials with a stored energy, deformations of positive volume and directions", "why_tests_cant": "Ranges over all deformations and is a statement about derivatives.", "anchors": ["FiniteDeformation/NonlinearElasticityULMX.C:NonlinearElasticityULMX::evalInt", "FiniteDeformation/NonlinearElasticityULMX.C:NonlinearElasticityULMX::finalizeElement"]}
{"id": "C114", "title": "The stiffness of the mixed element is the derivative of its internal forces", "statement": "For every material whose tangent is the derivative of its stress, the tangent stiffness returned by the mixed element with internal pressure modes is the derivative of the internal forces it returns with respect to the nodal displacements.", "quantifier": "all elements, numbers of nodes, points and modes, materials with a consistent tangent, deformations of positive volume and pairs of directions", "why_tests_cant": "A wrong term only slows the convergence of the iterations; results of tests stay the same.", "anchors": ["FiniteDeformation/NonlinearElasticityULMX.C:NonlinearElasticityULMX::finalizeElement", "FiniteDeformation/MixedTanMat.C", "FiniteDeformation/accKMx.f", "Elasticity/Elasticity.C:Elasticity::formKG"]}
{"id": "C115", "title": "The L-shape reference solution is in equilibrium with free edges", "statement": "The reference stresses of the L-shaped domain satisfy the equilibrium equations at every point of the domain, and the tractions on both edges of the re-entrant corner vanish to nine digits of the stresses there.", "quantifier": "all points of the domain, all sizes, loads and Poisson's ratios", "why_tests_cant": "A reference solution is trusted by the tests themselves; a singular field cannot be settled by sampling.", "anchors": ["Linear/AnalyticSolutions.C:Lshape::Lshape", "Linear/AnalyticSolutions.C:Lshape::evaluate"]}
{"id": "C116", "title": "Reference stresses are those of a displacement field", "statement": "Each closed-form reference solution is the stress state, by Hooke's law in plane stress or plane strain, of a displacement field that meets the prescribed displacements.", "quantifier": "all points of the domain and all parameters of the solutions (hole, L-shape, cantilevers, curved beam)", "why_tests_cant": "Stresses in equilibrium that are not compatible are never reached by refining the mesh; tests compare with one mesh.", "anchors": ["Linear/AnalyticSolutions.C:Hole", "Linear/AnalyticSolutions.C:Lshape", "Linear/AnalyticSolutions.C:CanTS", "Linear/AnalyticSolutions.C:CanTM", "Linear/AnalyticSolutions.C:CurvedBeam"]}
{"id": "C117", "title": "Internal forces of the updated Lagrangian element are the derivative of the strain energy", "statement": "For any hyperelastic material the internal forces returned by the updated Lagrangian displacement element are the derivative of its strain energy with respect to the nodal displacements, in solids, plane strain and axisymmetric solids.", "quantifier": "all elements, numbers of nodes and points, materials with a stored energy, deformations of positive volume and directions", "why_tests_cant": "Ranges over all deformations and is a statement about derivatives; a ring expanded as a rigid section is not covered by any test.", "anchors": ["FiniteDeformation/NonlinearElasticityUL.C:NonlinearElasticityUL::evalInt", "FiniteDeformation/NonlinearElasticityUL.C:NonlinearElasticityUL::kinematics"]}
{"id": "C118", "title": "The stiffness of the updated Lagrangian element is the derivative of its internal forces", "statement": "For every material whose spatial tangent is the derivative of its stress, the tangent stiffness returned by the updated Lagrangian displacement element is the derivative of the internal forces it returns with respect to the nodal displacements.", "quantifier": "all elements, numbers of nodes and points, materials with a consistent tangent, deformations of positive volume (rotated elements too) and pairs of directions", "why_tests_cant": "A wrong stiffness only slows the iterations; results of tests stay the same.", "anchors": ["FiniteDeformation/NonlinearElasticityUL.C:NonlinearElasticityUL::evalInt", "Elasticity/Elasticity.C:Elasticity::formKG"]}
{"id": "C119", "title": "Forces and stiffness of the total Lagrangian element are consistent", "statement": "In solids and plane strain, the internal forces of the total Lagrangian element are the derivative of the strain energy, and its stiffness is the derivative of the internal forces, for every material whose second Piola-Kirchhoff stress and tangent are derivatives of its stored energy and stress.", "quantifier": "all elements, numbers of nodes and points, materials, deformations of positive volume and directions", "why_tests_cant": "Statement about derivatives at all deformations.", "anchors": ["FiniteDeformation/NonlinearElasticityTL.C:NonlinearElasticityTL::evalInt", "FiniteDeformation/NonlinearElasticityTL.C:NonlinearElasticityTL::kinematics"]}
{"id": "C120", "title": "Forces and stiffness of the F-bar element are consistent", "statement": "The internal forces of the F-bar element do the virtual work of the stresses at the deformation whose volume change is replaced by the one extrapolated from the sampling points, and its stiffness is the derivative of these forces.", "quantifier": "all elements, numbers of nodes, points and sampling points, materials with a consistent tangent, deformations of positive volume and pairs of directions", "why_tests_cant": "The tangent has over thirty hand-written entries; a wrong one only slows the iterations.", "anchors": ["FiniteDeformation/NonlinearElasticityFbar.C:NonlinearElasticityFbar::reducedInt", "FiniteDeformation/NonlinearElasticityFbar.C:NonlinearElasticityFbar::evalInt"]}
{"id": "C121", "title": "The beam element delivers consistent forces, stiffness and mass in every solution mode", "statement": "In every solution mode in which they are wanted, the nodal forces of a beam element are its weight less the forces of its deformation, they balance the weight acting at the centre of gravity, the stiffness returned is their derivative, the mass matrix has the linear momentum of the beam, and an element that is evaluated in one mode is evaluated in all, with eccentric end points as well.", "quantifier": "all solution modes and integration parameters, sections, axes, eccentricities, gravity vectors, mass formulations, displacements and virtual motions", "why_tests_cant": "Depends on the combination of mode, eccentricity, mass formulation and displacement; the tests use linear statics and vibration.", "anchors": ["Beam/ElasticBeam.C:ElasticBeam::evalInt", "Beam/ElasticBeam.C:ElasticBeam::finalizeElement", "Elasticity/ElasticBase.C:ElasticBase::setMode"]}
{"id": "C122", "title": "A linear elastic material in large deformations is a Saint Venant-Kirchhoff solid", "statement": "In the large-deformation formulations a linear elastic material returns the Cauchy stress of the solid with Hooke's law between Green strain and second Piola-Kirchhoff stress, and the tangent of that stress; element forces and stiffness are therefore derivatives of the strain energy. This holds in solids, plane strain, plane stress and axisymmetric solids, and for the updated Lagrangian, F-bar and mixed elements.", "quantifier": "all moduli, Poisson's ratios from 0 to 1/2, deformations of positive volume, elements, points and directions", "why_tests_cant": "The push-forward matrix has 36 entries whose errors only show in combined shear and stretch; tests use few deformations and no ring with a linear material.", "anchors": ["FiniteDeformation/LinearMaterial.C:LinearMaterial::evaluate", "FiniteDeformation/NonlinearElasticityUL.C:NonlinearElasticityUL::kinematics", "FiniteDeformation/NonlinearElasticityFbar.C:NonlinearElasticityFbar::evalInt", "FiniteDeformation/NonlinearElasticityULMX.C:NonlinearElasticityULMX::finalizeElement"]}
{"id": "C123", "title": "A restarted simulation continues as the interrupted one would have", "statement": "A run started from a restart state goes through the same times and solutions, and saves results at the same times, as the run that wrote the state would have done if it had not been interrupted.", "quantifier": "all materials, solvers, time stepping and save parameters, and any number of steps before and after the restart", "why_tests_cant": "Needs runs interrupted at every possible step with every material and save interval; the tests compare complete runs with stored results.", "anchors": ["Elasticity/NonlinearDriver.C:NonlinearDriver::solveProblem", "Elasticity/NonlinearDriver.C:NonlinearDriver::serialize", "Elasticity/NewmarkDriver.h:NewmarkDriver::solveProblem", "Elasticity/NewmarkDriver.h:NewmarkDriver::serialize", "FiniteDeformation/PlasticMaterial.C:PlasticMaterial::evaluate", "main_NonLinEl.C:runSimulator"]}
{"id": "C124", "title": "Restart states are available at the requested interval", "statement": "If restart output is requested at every n-th step, the state after each of these steps is written, whatever the save interval of the results.", "quantifier": "all intervals of restart and result output and all runs", "why_tests_cant": "Depends on how the two intervals and the step lengths interfere over a run.", "anchors": ["Elasticity/NonlinearDriver.C:NonlinearDriver::solveProblem", "Elasticity/NewmarkDriver.h:NewmarkDriver::solveProblem"]}
{"id": "C125", "title": "Pressures in a text input file act where and as specified", "statement": "Every pressure line of a text input file gives one load on the named patch faces, with its own value and direction; a line that cannot be meant so is refused with a message.", "quantifier": "all input files with any number of sections and lines, all property sets and patch numberings", "why_tests_cant": "Depends on the combination of sections in one file; the test inputs have one section each.", "anchors": ["Elasticity/SIMElasticity.C:SIMElasticity::parse", "Elasticity/SIMElasticity.C:SIMElasticity::initNeumann"]}
{"id": "C126", "title": "Every patch is integrated once with the material given for it in the text input", "statement": "The materials of a text input file are used for exactly the patches they are given for; every patch is integrated once.", "quantifier": "all input files with any number of materials, codes and patches", "why_tests_cant": "Depends on the combination of material lines and property sets.", "anchors": ["Elasticity/SIMElasticity.C:SIMElasticity::parse", "Elasticity/SIMElasticity.C:SIMElasticity::initMaterial", "Elasticity/Elasticity.C:Elasticity::parseMatProp"]}
{"id": "C127", "title": "A plastic material has the parameters given in its input tag", "statement": "The yield stress of a plastic material is, at every plastic strain, that of the hardening law chosen in its tag with the parameters given there, and its density and elastic constants are those given, in whichever way the tag gives them.", "quantifier": "all tags, values and combinations of attributes, text and child elements, and all plastic strains", "why_tests_cant": "Positions of parameters shift between input and use, by law; tests use two of the laws.", "anchors": ["FiniteDeformation/SIMFiniteDefEl.C:SIMFiniteDefEl::parseMaterial", "FiniteDeformation/PlasticMaterial.C:PlasticMaterial::PlasticMaterial", "FiniteDeformation/PlasticMaterial.C:PlasticMaterial::PlasticPoint::yfunc"]}
{"id": "C128", "title": "Evaluations of one material at many points do not disturb each other", "statement": "The stress at a point is that of the material properties at the point, whatever points are evaluated before it or at the same time by other threads; and a plastic material has the same history afterwards in whatever order its integration points are visited.", "quantifier": "all property functions, any number of threads and points, and all interleavings of their evaluations", "why_tests_cant": "Depends on the scheduling of threads, which a test neither controls nor enumerates.", "anchors": ["Elasticity/LinIsotropic.C:LinIsotropic::evaluate", "FiniteDeformation/NeoHookeMaterial.C:NeoHookeMaterial::evaluate", "FiniteDeformation/NeoHookeMaterial.C:NeoHookeMaterial::findLameParams", "FiniteDeformation/PlasticMaterial.C:PlasticMaterial::evaluate"]}
{"id": "C129", "title": "Plastic results at a result point follow the deformation history of that point", "statement": "The plastic strain and stress reported at a result point are those following from the deformations of that point through all increments, as found at an integration point with the same deformations; they depend neither on how often results are saved nor on which other results are evaluated.", "quantifier": "all material laws, deformation histories, result points, and sequences of result evaluations", "why_tests_cant": "Depends on the whole sequence of result evaluations of a run; tests save one kind of results at every step.", "anchors": ["FiniteDeformation/PlasticMaterial.C:PlasticMaterial::initResultPoints", "FiniteDeformation/PlasticMaterial.C:PlasticMaterial::evaluate", "FiniteDeformation/NonlinearElasticityUL.C:NonlinearElasticityUL::initResultPoints"]}
{"id": "C130", "title": "Boundary forces are the resultant of the stresses on the boundary", "statement": "The force and moment reported for a boundary are the integrals of the stress times the outward normal and of its moment about the given point; nodal forces of the boundary have the same resultant and moment. No other entries of the result are used.", "quantifier": "all stress fields, boundaries with any number of points, reference points, space dimensions, result options and basis functions that sum to one", "why_tests_cant": "Statement about all stress fields and boundaries, and the result options in force when the forces are computed; tests have one flow of forces.", "anchors": ["Elasticity/Elasticity.C:ElasticityForce::evalBou", "Elasticity/Elasticity.C:ElasticityForce::evalForce", "Elasticity/Elasticity.C:ElasticityForce::getNoComps", "Elasticity/Elasticity.C:Elasticity::evalSol"]}
{"id": "C131", "title": "Nodal loads, total load and external energy describe the same loads", "statement": "The total load reported is the sum of the nodal loads, and the external energy reported is the work of the nodal loads on the displacements, for gravity, body forces and tractions together.", "quantifier": "all gravity vectors, density functions, body forces, tractions, points, numbers of nodes and displacements; plane, axisymmetric and solid bodies", "why_tests_cant": "The three are computed in different functions with their own conditions; no test compares them with each other for varying density or in axisymmetric bodies.", "anchors": ["Elasticity/Elasticity.C:Elasticity::formBodyForce", "Elasticity/Elasticity.C:Elasticity::evalBou", "Elasticity/Elasticity.C:Elasticity::haveLoads", "Elasticity/Elasticity.C:ElasticityNorm::evalInt", "Elasticity/Elasticity.C:ElasticityNorm::evalBou"]}
{"id": "C132", "title": "Stress results refer to the requested coordinate system", "statement": "With a local coordinate system, the reported stresses are the components in its directions at the point, whichever other results are requested; the equivalent stress and principal values are independent of the system; and exact stresses are reported in the same system, so that they can be compared.", "quantifier": "all stress tensors, points, local systems and result options (solids)", "why_tests_cant": "Statement about all tensors and rotations; tests with a local system use one combination of options.", "anchors": ["Elasticity/Elasticity.C:Elasticity::evalSol", "Elasticity/LocalSystems.C", "Elasticity/SIMElasticity.C:SIMElasticity::preprocessA"]}
{"id": "C133", "title": "Each property of a linear-elastic material is the one given in its tag", "statement": "The stiffness, Poisson's ratio, density and thermal properties of a linear-elastic material are the functions given in the child elements of the material tag bearing their names, else the values of the attributes, else the defaults, in whatever combination they are given.", "quantifier": "all material tags with any children and attributes, all texts and types of functions, and all points, temperatures and ages", "why_tests_cant": "Depends on the combination and sequence of the child elements; test inputs have at most one function per material.", "anchors": ["Elasticity/LinIsotropic.C:LinIsotropic::parse", "Elasticity/LinIsotropic.C:LinIsotropic::getMassDensity", "Elasticity/LinIsotropic.C:LinIsotropic::getPoissonRatio"]}
{"id": "C134", "title": "The three-field element derives from one potential", "statement": "With displacements, volume change and pressure as unknowns, the unbalanced forces of an element are the derivatives of the sum of strain energy at the independent volume change and pressure times the volume constraint, in all three fields, and the assembled symmetric matrix is the derivative of these forces along every change of the fields.", "quantifier": "all kinds of solids, numbers of nodes of both bases, integration points, hyperelastic materials, nodal values with positive volumes, loads already assembled, and directions of change", "why_tests_cant": "Derivatives along all directions at all states; tests solve single problems to convergence, where the forces vanish and the matrix affects only the number of iterations.", "anchors": ["FiniteDeformation/NonlinearElasticityULMixed.C:NonlinearElasticityULMixed::evalIntMx", "FiniteDeformation/NonlinearElasticityULMixed.C:MixedElmMats"]}
{"id": "C135", "title": "The analytical solution refers to the material and plate of the model", "statement": "A built-in analytical solution (hole, L-shape, cantilevers, curved beam, pipe, plates) has the elastic constants, and for plates the thickness, of the material given for the model, wherever the material and the solution stand in the input. Boundaries with analytical tractions use the same solution as the error norms, and the solution is the same whether given as a tag or as text.", "quantifier": "all inputs with any number and sequence of materials and analytical solutions, in both input formats, in two and three dimensions and for plates", "why_tests_cant": "Depends on the order of the input, which a test fixes; a wrong constant changes only the computed errors.", "anchors": ["Linear/SIMLinEl.h:SIMLinEl::parseAnaSol", "Linear/SIMLinEl2D.C:SIMLinEl2D::parseDimSpecific", "Linear/SIMLinEl3D.C:SIMLinEl3D::parseDimSpecific", "Linear/SIMLinElKL.C:SIMLinElKL::parseAnaSol", "Elasticity/Elasticity.C:Elasticity::parseMatProp", "Shell/SIMKLShell.C:SIMKLShell::parse"]}
{"id": "C136", "title": "The materials of a finite-deformation model give their elements the stresses they describe", "statement": "However the materials of a finite-deformation analysis are given (ISOTROPIC and PLASTIC sections, or tags), every one is kept in its order and the elements of its set or code use it, the first of a code counting; a single material is that of all elements. The Cauchy stress of an element is then the one the material describes, in total and updated Lagrangian elements alike: Saint Venant-Kirchhoff for a linear elastic material, the hyperelastic law of the given version, or plasticity; what a formulation cannot do is refused. The two input formats give the same model, and plastic materials are refused with result projections that cannot deal with their history.", "quantifier": "all inputs with any number of materials in any sequence of sections and tags, all formulations with displacements only, all deformations with positive volume", "why_tests_cant": "The wrong stress measure gives a plausible solution that differs from the right one only at second order in the strains; which material a default is depends on the order of the input.", "anchors": ["FiniteDeformation/SIMFiniteDefEl.C:SIMFiniteDefEl::parse", "FiniteDeformation/SIMFiniteDefEl.C:SIMFiniteDefEl::parseMaterial", "FiniteDeformation/SIMFiniteDefEl.C:SIMFiniteDefEl::preprocessB", "FiniteDeformation/NLoptions.C:NLoptions::getIntegrand", "FiniteDeformation/LinearMaterial.C:LinearMaterial::evaluate", "FiniteDeformation/PlasticMaterial.C:PlasticMaterial::evaluate", "Elasticity/Elasticity.C:Elasticity::parseMatProp"]}
{"id": "C137", "title": "Command-line options have their effect wherever they stand, and override the input file", "statement": "The linear program does with its command line what the words say: every option sets what it is documented to set and nothing else, with the values following it; settings of the input file hold unless an option says otherwise, and of two options setting the same the last counts. It does not matter whether the input file stands before, between or after the options. Words that are no option are reported, and never change what is read.", "quantifier": "all command lines (any number of words in any sequence), contents of the input file, and sets of options known to the finite element library", "why_tests_cant": "The number of sequences of options is unlimited; tests run a few of them, always with the input file first.", "anchors": ["main_LinEl.C:main", "Elasticity/ElasticityArgs.C:ElasticityArgs::parseArg", "Elasticity/ElasticityArgs.C:ElasticityArgs::parse"]}
{"id": "C138", "title": "The linear program performs the analysis asked for, and no other", "statement": "From the command line and input file follow the analyses performed: static, adaptive, buckling, vibration, modal or direct time integration, load cases, coupled models, condensation, or assembly only. A data check solves nothing, and a static condensation is done if asked for; what cannot be combined is refused.", "quantifier": "all combinations of options, eigenvalue modes, dimensions, and restart", "why_tests_cant": "Combinations of options are not tested; the program ends successfully although something else was done.", "anchors": ["main_LinEl.C:main", "Linear/DynamicDriver.C:dynamicSim", "Linear/MultiLoadCaseDriver.C:mlcSim"]}
{"id": "C139", "title": "Every printed norm and error estimate is the quantity its heading names", "statement": "In the report of the linear program and in the step reports of the nonlinear programs, every value is the norm, error, section force or effectivity index named in front of it, every percentage refers to the quantity named in brackets, and no available quantity is missing: with and without analytical solution, dual solution, projections, and for any number of section forces. The volume is a volume, not its root.", "quantifier": "all integration points, stresses, loads and weights; any number of extraction functions and projections; continua, plates and shells; all formulations of the nonlinear programs", "why_tests_cant": "The position of an entry depends on options that tests do not combine, and a value under a wrong heading looks plausible.", "anchors": ["Elasticity/SIMElasticity.C:Elastic::printNorms", "main_LinEl.C:main", "Shell/SIMKLShell.C:SIMKLShell::printNormGroup", "Elasticity/NonlinearDriver.C:NonlinearDriver::printNorms", "Elasticity/Elasticity.C:Elasticity::getVolumeIndex", "Elasticity/SIMElasticity.C:SIMElasticity::haveAnaSol"]}
{"id": "C140", "title": "Re-reading the input after a mesh refinement gives the model the input describes", "statement": "When the mesh is refined during an analysis, the input file is read once more. The model is then again the one described by the file, however many refinements have been made: its materials and the material chosen for the whole model (a default one if none is given), the boundary sections, rigid and nodal couplings, dual functions, contact bodies, and the thicknesses of shells.", "quantifier": "all input files (any number and sequence of the tags), any number of refinements, any sequence of patches visited in between", "why_tests_cant": "A refinement happens inside a long analysis and a wrong constraint or a deleted function gives a plausible solution; adaptive tests have neither couplings, contact nor thickness functions.", "anchors": ["Elasticity/SIMElasticity.C:SIMElasticity::clearProperties", "Shell/SIMKLShell.C:SIMKLShell::clearProperties", "Elasticity/SIMRigid.C:SIMRigid::parseCouplings", "FiniteDeformation/SIMContact.C:SIMContact::parseContactTag", "Elasticity/NonlinearDriver.C:NonlinearDriver::adaptMesh"]}
{"id": "C141", "title": "A nonlinear analysis continues from the same state after a mesh refinement", "statement": "If error indicators call for it, the mesh is refined between two load steps and the analysis resumes on the new mesh from the same state: all solution vectors have, on every patch, the values transferred by the refinement; the history of the material points is kept; the section forces printed afterwards are those of the sections on the new mesh. Without refinement nothing changes, and a failure of any part ends the analysis.", "quantifier": "all meshes with any number of patches and solution vectors, all transferred values, all histories, any number of sections", "why_tests_cant": "Needs a refined mesh of several patches inside a nonlinear analysis; a Newton iteration can hide a wrong start vector.", "anchors": ["Elasticity/NonlinearDriver.C:NonlinearDriver::adaptMesh", "Elasticity/NonlinearDriver.C:NonlinearDriver::calcInterfaceForces", "Elasticity/SIMElasticity.C:Elastic::printBoundaryForces"]}
{"id": "C142", "title": "In a converged augmented Lagrange contact analysis the contact conditions hold", "statement": "The equation of the Lagrange multiplier of a boundary node is satisfied exactly if the contact conditions hold there: the mean gap around the node is not negative, the contact force is compressive or zero, and there is no force across an open gap; if it is satisfied up to a tolerance, so are the conditions. The forces on the bodies are then the multipliers, acting through the mean gaps: contact only pushes, and action equals reaction. If a node with a contact area has no multiplier, the analysis stops. This holds for each body a boundary is in contact with.", "quantifier": "all contact elements with any number of nodes and points, any number of slave nodes and bodies, all gaps, multipliers and penalties greater than zero, all iterations but the first of a step", "why_tests_cant": "The conditions are inequalities at every node; a run shows one converged state, and a wrong sign in one branch only shows when a node opens or closes during iteration.", "anchors": ["FiniteDeformation/MortarContact.C:MortarAugmentedLag::initIntegration", "FiniteDeformation/MortarContact.C:MortarAugmentedLag::initElementBou", "FiniteDeformation/MortarContact.C:MortarAugmentedLag::evalBou", "FiniteDeformation/MortarContact.C:MortarAugmentedLag::assemble", "FiniteDeformation/SIMContact.C:SIMContact::addLagrangeMultipliers"]}
{"id": "C143", "title": "The augmented Lagrange contact matrix is the derivative of the contact equations", "statement": "As long as the same nodes are in contact, a change of the displacements and multipliers changes the contact forces and the multiplier equations by the negative product of the contact matrix and the change, so that a Newton step which solves the multiplier equations ends in a state with the contact conditions satisfied; and the matrix is symmetric.", "quantifier": "all contact elements with any number of nodes and points, all motions of nodes, all changes of multipliers, all penalties greater than zero", "why_tests_cant": "A wrong entry of the matrix only slows the iterations down; comparing with difference quotients covers one configuration.", "anchors": ["FiniteDeformation/MortarContact.C:MortarAugmentedLag::evalBou", "FiniteDeformation/MortarContact.C:MortarAugmentedLag::assemble", "FiniteDeformation/MortarContact.C:MortarAugmentedLag::ALElmMats::getNewtonMatrix", "FiniteDeformation/MortarContact.C:MortarContact::assResAndTangent"]}
{"id": "C144", "title": "The linear elastic element is the linear elastic problem of the interpolated fields", "statement": "For plane stress, plane strain, axisymmetric and three-dimensional solids, the matrices and vectors of a linear elastic element are the virtual work of Hooke's law for the interpolated displacements: stiffness, geometric stiffness of the current stress, mass, internal forces, body and thermal loads, and the load of a dual problem from its extraction function, integrated over the element. Each is added where it was asked for and nowhere else. Stiffness and mass are symmetric, the stiffness energy is zero exactly for fields without strain, and rigid motions give no forces.", "quantifier": "all numbers of nodes and points, all shape functions, gradients, moduli, densities, loads, displacements and extraction functions, all positions of the results", "why_tests_cant": "A test compares one mesh and one load; options for several results in one element are rarely combined, and wrong terms can vanish on regular elements.", "anchors": ["Elasticity/LinearElasticity.C:LinearElasticity::evalInt", "Elasticity/LinearElasticity.C:LinearElasticity::initElement", "Elasticity/LinearElasticity.C:LinearElasticity::formInitStrainForces", "Elasticity/Elasticity.C:Elasticity::formBmatrix", "Elasticity/LinIsotropic.C:LinIsotropic::evaluate"]}
{"id": "C145", "title": "The interface stabilisation adds the penalised jump once per face", "statement": "On an interface the linear elastic element adds gamma times Young's modulus times the element size across the interface to the power 2p+1 times the product of the supplied functions, equally in all directions: it is symmetric, positive at the upper end of the parameter and negative at the lower end. Nothing is added if no stiffness is computed elsewhere; a missing stiffness matrix, an axisymmetric model or a point that is not on an interface is reported.", "quantifier": "all dimensions, numbers of nodes, degrees, sizes, moduli and functions", "why_tests_cant": "The sign and the face are chosen by exact comparison of parameters; a test sees one face of one element size.", "anchors": ["Elasticity/LinearElasticity.C:LinearElasticity::evalInt", "Elasticity/LinearElasticity.C:LinearElasticity::initElement"]}
{"id": "C146", "title": "In a linear static analysis the reactions balance the loads and the energies agree", "statement": "For any mesh of linear elastic solids, let displacements and reactions satisfy the assembled equations, the reactions acting at prescribed unknowns only. Then in each direction the reactions add up to minus the total of the body and nodal forces, and their work on any rigid motion is minus that of the loads; thermal loads contribute nothing (axisymmetric bodies: the axial direction). Twice the strain energy is the work of the loads and reactions. Two load cases satisfy reciprocity, and the quantity extracted from the solution is the work of the loads on the dual solution. The displacements are unique up to strain-free fields and make the potential energy minimal.", "quantifier": "all meshes with any numbers of nodes, elements and points, all connectivities, shape functions, moduli, loads, prescribed values and extraction functions", "why_tests_cant": "A run checks one mesh and one load; a term assembled at a wrong place or with a wrong sign in one mode can leave the residual of the solver at zero.", "anchors": ["Elasticity/LinearElasticity.C:LinearElasticity::evalInt", "Elasticity/LinearElasticity.C:LinearElasticity::setMode", "Elasticity/ElasticBase.C:ElasticBase::setMode", "Elasticity/Elasticity.C:Elasticity::formBmatrix"]}
{"id": "C147", "title": "States of constant strain and free thermal expansion are reproduced exactly", "statement": "If all parts have the same material and there are no body forces, a displacement field linear in the coordinates has no nodal forces at nodes whose functions vanish on the boundary, and on the boundary those of its constant stress. Prescribing it at some unknowns and applying these forces at the others, the computed displacements are the linear field at all nodes, and the strain is constant, whatever the mesh. Under a uniform temperature strain the free expansion is in equilibrium with the thermal loads without reactions, also with different materials and in axisymmetric bodies.", "quantifier": "all meshes with any numbers of nodes, elements and points, all linear fields, all moduli in the admissible range, all temperatures", "why_tests_cant": "The patch test is usually run on one or two meshes; it must hold for every connectivity and element distortion.", "anchors": ["Elasticity/LinearElasticity.C:LinearElasticity::evalInt", "Elasticity/LinearElasticity.C:LinearElasticity::formInitStrainForces", "Elasticity/Elasticity.C:Elasticity::formBmatrix", "Elasticity/LinIsotropic.C:LinIsotropic::evaluate"]}
{"id": "C148", "title": "Energy norms of linear analyses are the energies of the mesh, and the error is the smallest possible", "statement": "The reported norms of a linear analysis are the sums over all integration points of: the strain energy of the computed displacements, the work of the body forces, the complementary energies of the analytical stress and of its difference to the computed one, the volume, and the virtual work on every extraction field. In equilibrium with supports at rest the energy equals the external energy plus the work of the other loads. If the analytical stress balances the loads, the squared error is the exact energy minus the computed one, and no other displacement field with the same prescribed values has a smaller error. Two parts fail: with strains as output the entries for extraction fields are products of strains instead of energies, and gravity is left out of the external energy when the density is zero at the origin.", "quantifier": "all meshes, displacements, analytical stresses, extraction fields, plane stress, plane strain, axisymmetric and 3D bodies, moduli in the admissible range", "why_tests_cant": "The identities between norms hold for every mesh and every solution; regression tests compare the printed digits of a few.", "anchors": ["Elasticity/Elasticity.C:ElasticityNorm::evalInt", "Elasticity/Elasticity.C:Elasticity::evalSol", "Elasticity/Elasticity.C:Elasticity::haveLoads", "Elasticity/Elasticity.C:Elasticity::getBodyforce", "Elasticity/Elasticity.C:Elasticity::formCmat", "main_LinEl.C:main"]}
{"id": "C149", "title": "Plates, shells and beams described by keywords are those of the XML description", "statement": "A plate, shell or rotation-free beam given by keyword sections in a text file has the gravity, materials, thicknesses, property assignments and pressures on every patch written there, the same as the equivalent XML input, for any sequence of complete sections with positive pressure codes. The point loads are those of the last section only, so all of them act exactly if no earlier section has any (XML: all act). Failing parts: loads of earlier sections are lost and may pass on their direction; a section with fewer lines than announced is accepted, so that a plate or shell calls a missing function, or a following keyword line is taken as data (gravity becomes a pressure); a pressure with code zero acts everywhere in text and nowhere in XML; pressures given as text, or of beams, are not kept for visualisation.", "quantifier": "all sequences of sections with any numbers of lines, all values, codes and boundary properties; plates, shells and beams", "why_tests_cant": "The two parsers are separate code; a test compares single files, and the lost loads only show with two sections.", "anchors": ["Shell/SIMKLShell.C:SIMKLShell::parse", "Linear/SIMLinElBeamC1.C:SIMLinElBeamC1::parse", "Elasticity/KirchhoffLove.C:KirchhoffLove::haveLoads", "Shell/SIMKLShell.C:SIMKLShell::initBodyLoad"]}
{"id": "C150", "title": "Frames of beams: equilibrium of reactions, loads and weight", "statement": "In a static analysis of any frame of beam elements, displacements in equilibrium have reactions that balance the nodal loads and the weight of the members, in force and in moment; twice the strain energy of the members is the work of loads, reactions and weight; the work of one load case in the displacements of another is reciprocal; equal loads and supports give displacements that differ by strainless motions only; and solving the equations assembled at rest once gives equilibrium. One part fails: the moments do not balance for members with different eccentricities at their ends.", "quantifier": "all numbers of nodes and members, connectivities, local axes, lengths, section properties, eccentricities, gravity, loads, supports and displacements", "why_tests_cant": "A test checks the tip displacement of a cantilever; the balance is a statement about every frame, every support and every displacement, and fails for one kind of member only.", "anchors": ["Beam/ElasticBeam.C:ElasticBeam::evalInt", "Beam/ElasticBeam.C:ElasticBeam::finalizeElement", "Beam/ElasticBeam.C:ElasticBeam::initElement", "Elasticity/ElasticBase.C:ElasticBase::setMode"]}
{"id": "C151", "title": "A truss is balanced exactly where its potential energy is stationary", "statement": "In a static analysis of a truss of two-node bars with one to three unknowns in each node the system is assembled exactly if every bar is longer than 1e-8 before and after the displacements. The assembled forces are minus the gradient of the energy stored in the bars (for any strain measure) and of the potential of their weights, acting in their middles. So displacements balance given nodal loads exactly if they make the potential energy stationary. With geometric stiffness the assembled matrix is minus the derivative of the assembled forces; it is symmetric; at rest every bar is a spring EA/L against the relative displacement of its ends along it. Reactions, loads and weights balance in force, and in moment about the current positions of the nodes.", "quantifier": "for all trusses (any number of nodes and bars, any strain measure, one to three unknowns in each node), displacements, directions, loads and supports", "why_tests_cant": "Tests compare the displacements of a few trusses with stored values; they cannot show that forces and matrix belong to one energy for all trusses and displacements.", "anchors": ["Beam/ElasticBar.C:ElasticBar::evalInt", "Beam/ElasticBar.C:ElasticBar::finalizeElement", "Elasticity/ElasticBase.C:ElasticBase::setMode"]}
{"id": "C152", "title": "Every load in the input of bars, cables and beams acts on the model, or the input is refused", "statement": "The nodal and point loads written in the bar, cable or beam elements of an input file act with their value at the time in their node or point and direction, each once, in whatever sequence they and other elements stand; nothing else is in the load vector. Bars and beams in one file are refused. A load that cannot act (no such direction, a parameter outside the patch, no node) makes the reader refuse the file. The last part fails: such loads are dropped and the file is accepted, and in the plane a load in the third direction is accepted although the nodes have only two.", "quantifier": "for all input files, numbers of elements and loads, values, times and models", "why_tests_cant": "Tests run files with correct loads; that a misspelt load is lost without a message only shows in its absence.", "anchors": ["Beam/SIMElasticBar.C:SIMElasticBar::parse", "Beam/SIMElasticBar.C:SIMElasticBar::preprocessA", "Beam/SIMElasticBar.C:SIMElasticBar::preprocessB", "Beam/SIMElasticBar.C:SIMElasticBar::assembleDiscreteTerms"]}
{"id": "C153", "title": "A thin plate is solved as its bending problem", "statement": "In a linear static analysis of a two-dimensional thin plate the assembled matrix gives the virtual work of the moments, the load vector that of weight and pressures, and the reported total is the load on the plate; in the first formulation the energy is that of plane-stress layers whose strains vary linearly over the thickness. The matrix is symmetric. With functions that represent flat deflections, reactions, nodal loads and area loads balance in force and in moment about both axes. Twice the energy is the work of all forces, load cases are reciprocal, and deflections balance the loads exactly if no others with the same prescribed values have a smaller potential energy. In the formulations with moments and with the Hessian, loads and supports determine the curvatures. The last part fails for the formulation with the Laplacian: saddles cost no energy.", "quantifier": "for all plates (any number of elements, nodes and points, material and thickness varying from point to point), loads, supports and deflections", "why_tests_cant": "Tests compare norms of a few plates with stored values; balance, minimum and uniqueness are statements on all plates and loads.", "anchors": ["Linear/KirchhoffLovePlate.C:KirchhoffLovePlate::evalInt", "Linear/KirchhoffLovePlate.C:KirchhoffLovePlate::evalK1", "Linear/KirchhoffLovePlate.C:KirchhoffLovePlate::evalK2", "Elasticity/KirchhoffLove.C:KirchhoffLove::formBodyForce", "Elasticity/KirchhoffLove.C:KirchhoffLove::getPressure"]}
{"id": "C154", "title": "Vibration modes and buckling factors of linear solids", "statement": "In a vibration analysis the two matrices handed to the eigenvalue solver give, for all nodal fields, twice the strain energy and twice the kinetic energy of the mesh; in a linear buckling analysis the second one gives the work of the stresses of the pre-buckling displacements in the rotations. Hence for whatever eigenpair solves these equations at the free unknowns: the eigenvalue is the ratio of the energies, is never negative and is zero for motions without strain only; modes with different eigenvalues are orthogonal in both energies and independent, and the energies of a combination are the sums of theirs; rigid motions of an unsupported body have eigenvalue zero, and a translation has the total mass. Multiplying the pre-buckling displacements by a number divides the buckling factors by it, a positive factor belongs to a mode in which the stresses do negative work or which has no strain, and a body in tension has no positive factor but for motions without strain.", "quantifier": "all meshes of any number of elements, nodes, points and shape functions, all three kinds of solids in vibration and plane or solid ones in buckling, all materials, densities and supports, all pre-buckling displacements with strains zero or above the threshold of the material, all eigenpairs and lists of eigenpairs", "why_tests_cant": "tests compare a few frequencies of a few meshes with reference values; signs, orthogonality and superposition concern all modes of all meshes", "anchors": ["Elasticity/LinearElasticity.C:LinearElasticity::setMode", "Elasticity/LinearElasticity.C:LinearElasticity::evalInt", "Elasticity/ElasticBase.C:ElasticBase::setMode"]}
{"id": "C155", "title": "A model coupled with beams is solved as one system and shown part by part", "statement": "A coupled static analysis assembles every part once, in static mode, into the equation system of the first part and solves it once; nothing is solved if an assembly fails. The status tells the first step that failed (4 assembly, 5 solution, 12 geometry, 16 results), zero if none did. Values at result points are printed for the parts that have such points, with the tolerance given for the run if positive, and the global print tolerance is left as it was. The fields u1 and u2 are exported once, if and only if the system was solved. The results of each part are attached to the geometry blocks of this part and no block belongs to two parts; afterwards no part refers to the file. Failing part: the file is closed only if all outputs succeed.", "quantifier": "all numbers of coupled simulators (at least one), all outcomes of their assembly, solution and output calls, all numbers of patches, tolerances and output formats", "why_tests_cant": "Tests run successful analyses of two parts and compare printed values; failures, more parts, and the block numbers in the file are not looked at.", "anchors": ["Linear/SIMmcStatic.C:SIMmcStatic::solveStatic", "main_LinEl.C:main"]}
