#!/usr/bin/env python3
"""Writes ../properties.jsonl (one JSON object per line)."""
import json, os
P = []
def p(id, title, statement, quantifier, why, anchors):
    P.append(dict(id=id, title=title, statement=statement, quantifier=quantifier,
                  why_tests_cant=why, anchors=anchors))

# ---------------------------------------------------------------- linear material
p("C01", "Isotropic elastic stiffness is symmetric and positive definite",
  "For every admissible Young's modulus and Poisson's ratio and every analysis mode (1D, plane stress, plane strain, axisymmetric, 3D) the constitutive matrix returned by the linear isotropic material is symmetric and every non-zero strain does strictly positive work against the stress it causes. The call never writes outside the matrix it sized.",
  "all E>0, all nu in [0,0.5), all five modes, all strain vectors",
  "Tests evaluate a handful of moduli; indefiniteness or asymmetry only shows for particular nu/strain combinations and then as a failing solver far away.",
  ["Elasticity/LinIsotropic.C:LinIsotropic::evaluate"])
p("C02", "The inverse constitutive matrix is the inverse",
  "For every mode, the matrix returned when the inverse is requested is the two-sided inverse of the matrix returned when the stiffness is requested.",
  "all E>0, all nu in [0,0.5), all modes",
  "Energy norms silently become wrong if the two branches (separate hand-written formulas) disagree for some nu; a test compares single numbers.",
  ["Elasticity/LinIsotropic.C:LinIsotropic::evaluate"])
p("C03", "Stresses obey Hooke's law of the 3D solid in every mode",
  "The stress returned for a strain equals lambda*tr(eps)*I+2*mu*eps of the 3D solid: directly in 3D and axisymmetric mode, with eps_zz=0 in plane strain (including the reported sigma_zz), and with eps_zz eliminated so that sigma_zz=0 in plane stress. The Lame parameters returned by the material are the ones of that law.",
  "all admissible E, nu, all modes, all strains",
  "It is an identity between four hand-derived matrices and one law, for a continuum of inputs.",
  ["Elasticity/LinIsotropic.C:LinIsotropic::evaluate"])
p("C04", "Inadmissible Poisson's ratios are rejected",
  "An evaluation succeeds only when Poisson's ratio lies in [0,0.5); every other double, including NaN, makes it fail.",
  "every IEEE-754 double as Poisson's ratio",
  "There are 2^64 doubles and the interesting ones (NaN, infinities, signed zero, the half-open end) are exactly those a test forgets.",
  ["Elasticity/LinIsotropic.C:241", "Elasticity/LinIsotropic.C:332"])
p("C05", "All stiffness queries of one material agree",
  "The Young's modulus used to form the constitutive matrix at a point is the one reported by the stiffness query and the one used for the plate stiffness at that point, whichever of constant, function, field or ageing law defines it.",
  "all combinations of stiffness definitions, all points, all ages",
  "The combinations of optional definitions multiply; test inputs use one definition at a time.",
  ["Elasticity/LinIsotropic.C:LinIsotropic::evaluate", "Elasticity/LinIsotropic.C:LinIsotropic::getStiffness", "Elasticity/LinIsotropic.C:LinIsotropic::getPlateStiffness"])
p("C06", "Free thermal expansion causes no stress and constrained expansion gives the 3D stress",
  "For an isotropic body heated uniformly: if the strain equals the free thermal expansion the recovered stress is zero, and in general the recovered stress is the 3D Hooke stress of (total strain minus thermal strain), with total eps_zz=0 in plane strain.",
  "all moduli, temperatures changes, strains and 2D/axisymmetric/3D modes",
  "The recovered stress looks plausible for any input; only the comparison with the 3D law for all inputs shows that a term is missing or counted twice.",
  ["Elasticity/Elasticity.C:Elasticity::evalSol", "Elasticity/LinearElasticity.C:LinearElasticity::getThermalStrain", "Elasticity/LinearElasticity.C:LinearElasticity::formInitStrainForces"])
# ---------------------------------------------------------------- hyperelastic
p("C07", "Volumetric moduli are the derivatives of the volumetric energy",
  "For each volumetric law offered by the hyperelastic material, the reported pressure-like modulus is the first derivative of the reported volumetric energy with respect to J, and the reported second modulus is the second derivative.",
  "all bulk moduli, all J>0, all volumetric laws",
  "A wrong derivative only degrades Newton convergence or energy balance slightly; tests compare converged displacements.",
  ["FiniteDeformation/NeoHookeMaterial.C:NeoHookeMaterial::volumetricModuli"])
p("C08", "Hyperelastic stresses are objective, symmetric and vanish in the reference state",
  "The Cauchy stress of the standard neo-Hooke material is J^-1*(mu*(b-I)+lambda*lnJ*I) of the left Cauchy-Green tensor b; it is zero at F=I, rotates with a superposed rigid rotation, and the spatial tangent is symmetric.",
  "all deformation gradients with J>0, all rotations, all Lame parameters",
  "Objectivity ranges over all rotations and all deformation gradients.",
  ["FiniteDeformation/NeoHookeMaterial.C:NeoHookeMaterial::evaluate", "FiniteDeformation/NeoHookeMaterial.C:stdNeoHooke"])
p("C09", "Hyperelastic parameters survive repeated set-up",
  "Converting the input parameters (E,nu) or (K,G) to Lame form gives the same material however many times the set-up is performed.",
  "all parameter pairs, any number of repeated set-ups",
  "A history property: the value depends on how often a conversion ran before.",
  ["FiniteDeformation/NeoHookeMaterial.C:NeoHookeMaterial::findLameParams"])
p("C10", "Elastic constants convert consistently between (E,nu) and (K,G)",
  "The conversions between Young's modulus/Poisson's ratio and bulk/shear modulus used by the plastic and hyperelastic materials are mutually inverse and agree with the Lame parameters of the linear material.",
  "all admissible E, nu",
  "An identity over a continuum of parameters across separately written formulas.",
  ["FiniteDeformation/PlasticMaterial.C:PlasticMaterial::PlasticMaterial", "FiniteDeformation/NeoHookeMaterial.C:NeoHookeMaterial::findLameParams", "Elasticity/LinIsotropic.C:LinIsotropic::evaluate"])
# ---------------------------------------------------------------- plasticity
p("C11", "Hardening slopes are the derivatives of the yield stress",
  "For every hardening law the reported hardening slope is the derivative of the current yield stress with respect to the accumulated plastic strain.",
  "all hardening parameters and all accumulated plastic strains",
  "A wrong slope only changes the number of local iterations for most data; it gives wrong stresses only at large strain increments.",
  ["FiniteDeformation/PlasticMaterial.C:PlasticMaterial::PlasticPoint::yfunc"])
p("C12", "Re-evaluating an increment does not accumulate history",
  "Within one load increment, evaluating a plastic point any number of times for any sequence of trial deformations leaves the next result dependent only on the last converged state and the last trial deformation.",
  "all sequences of trial evaluations inside an increment",
  "The number and values of the Newton iterates are not controllable in a test.",
  ["FiniteDeformation/PlasticMaterial.C:PlasticMaterial::evaluate", "FiniteDeformation/PlasticMaterial.C:PlasticMaterial::PlasticPoint::evaluate", "FiniteDeformation/PlasticMaterial.C:PlasticMaterial::PlasticPoint::updateState"])
p("C13", "Only converged increments become history",
  "The plastic history used by an increment is the one of the last converged increment, also when increments in between diverged and were repeated with a smaller step.",
  "all histories of converged and rejected increments",
  "Needs a diverging Newton iteration at a particular increment; the wrong history then looks like a slightly different material.",
  ["FiniteDeformation/PlasticMaterial.C:PlasticMaterial::initIntegration", "FiniteDeformation/PlasticMaterial.C:PlasticMaterial::PlasticPoint::updateState", "Elasticity/NonlinearDriver.C:NonlinearDriver::solveProblem"])
p("C14", "The accumulated strain energy is path independent for a linear law",
  "The incremental strain-energy integral kept for each point equals one half stress times strain of the current state for every linear symmetric stress-strain law and every strain history, with any number of increments.",
  "all symmetric linear laws, all strain paths of any length",
  "Path independence quantifies over all paths.",
  ["FiniteDeformation/PlasticMaterial.C:PlasticMaterial::PlasticPoint::energyIntegral"])
p("C15", "Material input of any length is safe to evaluate",
  "Whatever number of parameters the input gives for a plastic material, evaluating the material reads only parameters that exist.",
  "all parameter-list lengths, both input formats, all hardening laws",
  "Reading past the end of an array usually returns a plausible number, so a test passes.",
  ["FiniteDeformation/PlasticMaterial.C:PlasticMaterial::PlasticMaterial", "FiniteDeformation/PlasticMaterial.C:PlasticMaterial::PlasticPoint::yfunc", "FiniteDeformation/SIMFiniteDefEl.C"])
p("C16", "A stress state outside the yield surface is seen as plastic by every yield criterion",
  "For each yield criterion, when the equivalent stress exceeds the current yield stress the yield function is positive.",
  "all stresses, all yield criteria, all parameters",
  "The faulty branch depends on an internal flag and on the stress invariants jointly.",
  ["FiniteDeformation/PlasticMaterial.C:PlasticMaterial::PlasticPoint::yfunc"])
# ---------------------------------------------------------------- finite-deformation elements
p("C17", "Green strain vanishes under rigid rotation and B is its derivative",
  "In the total Lagrangian formulation the strain is zero exactly when F is a rotation (F^T F=I), and for elements of any number of nodes the strain-displacement matrix is the exact linearisation: E(u+d)=E(u)+B(u)d+(quadratic remainder in d), in 2D and 3D.",
  "all deformation gradients, all displacement fields, all numbers of element nodes",
  "Exactness of a derivative is a statement about all directions and all nodes.",
  ["FiniteDeformation/NonlinearElasticityTL.C:NonlinearElasticityTL::kinematics"])
p("C18", "The two ways of forming internal forces agree",
  "The tensor form of the internal forces (optimised element) equals minus B^T times the second Piola-Kirchhoff stress (standard element) for every node.",
  "all F, all symmetric stresses, all nodes",
  "Two independent implementations are only compared on a few elements.",
  ["FiniteDeformation/NonlinearElasticity.C:NonlinearElasticity::evalInt", "FiniteDeformation/NonlinearElasticityTL.C:NonlinearElasticityTL::kinematics"])
p("C19", "The tensorial tangent equals B^T C B",
  "The optimised material stiffness kernel returns B^T C B for every symmetric constitutive matrix, and the isotropic short-cut kernel equals the general kernel.",
  "all constitutive matrices, all F, all shape-function gradients",
  "For isotropic matrices an index mix-up is invisible, and tests only use isotropic materials.",
  ["FiniteDeformation/stiff_TL.f", "FiniteDeformation/NonlinearElasticity.C"])
p("C20", "The F-bar spatial tangent is C plus the initial-stress term and is symmetric",
  "The fourth-order spatial tangent assembled for the F-bar elements equals C_ijkl + delta_jl*sigma_ik entry by entry (2D, axisymmetric, 3D) and is symmetric for symmetric C and sigma.",
  "all symmetric C and sigma, all 16/25/81 entries",
  "Eighty-one hand-written entries; a wrong stress component in one of them only matters for stress states where the components differ.",
  ["FiniteDeformation/NonlinearElasticityFbar.C:getAmat2D", "FiniteDeformation/NonlinearElasticityFbar.C:getAmat3D"])
p("C21", "Volume-modified deformation gradients have the projected volume change",
  "The modified deformation gradient of the F-bar and mixed formulations has determinant equal to the averaged volume ratio, keeps the isochoric part, and equals F when the averaged ratio equals det F.",
  "all F with det F>0, all positive volume ratios, 2D and 3D",
  "A determinant identity over all matrices.",
  ["FiniteDeformation/NonlinearElasticityFbar.C:NonlinearElasticityFbar::evalInt", "FiniteDeformation/NonlinearElasticityULMX.C:NonlinearElasticityULMX::finalizeElement"])
p("C22", "F-bar element data accept exactly perfect sampling grids",
  "The F-bar element data initialise successfully exactly when the number of sampling points is a perfect power of the space dimension, and then index every point once.",
  "all numbers of sampling points and dimensions",
  "Rounding of a computed root only fails for particular integers.",
  ["FiniteDeformation/NonlinearElasticityFbar.C:FbarElmData::init"])
p("C23", "The mixed three-field Newton matrix and residual use one consistent DOF map",
  "The condensed displacement/pressure/volume Newton system places every block at positions that do not collide, covers all rows, is symmetric when its diagonal blocks are, and uses the same ordering as the residual vector.",
  "all element sizes (any number of displacement and pressure nodes), all block contents",
  "Index collisions depend on element order; tests use one or two orders.",
  ["FiniteDeformation/NonlinearElasticityULMixed.C:getNewtonMatrix", "FiniteDeformation/NonlinearElasticityULMixed.C:getRHSVector"])
p("C24", "Follower tractions are pulled back with Nanson's formula",
  "The nodal load of a surface traction given per current area equals the traction times det(F)*F^-T applied to the reference normal area, and reduces to the given traction for F=I.",
  "all invertible F, normals, tractions",
  "A tensor identity over all deformation states.",
  ["FiniteDeformation/NonlinearElasticityTL.C:NonlinearElasticityTL::evalBou", "FiniteDeformation/NonlinearElasticityUL.C:NonlinearElasticityUL::evalBou"])
p("C25", "Load gradients go to the load-gradient vector",
  "When the load gradient is requested (arc-length control) the body load is added to the external load vector and its gradient to the gradient vector, and neither vector receives the other's contribution.",
  "all load values and gradients, all formulations",
  "Arc-length control still converges with a polluted load vector, to another equilibrium path.",
  ["FiniteDeformation/NonlinearElasticityTL.C:NonlinearElasticityTL::evalInt", "FiniteDeformation/NonlinearElasticityUL.C:NonlinearElasticityUL::evalInt"])
# ---------------------------------------------------------------- element integrals
p("C26", "Geometric stiffness is linear in the stress",
  "The geometric stiffness of the continuum element is linear in the stress tensor, symmetric, and doubles when the stress doubles or changes sign when the stress does, also in axisymmetric mode.",
  "all stresses, all shape functions, any number of nodes",
  "Sign dependence of one term shows only for compressive hoop stress.",
  ["Elasticity/Elasticity.C:Elasticity::formKG"])
p("C27", "Consistent mass and nodal loads carry the total mass and total load",
  "The consistent mass matrix is symmetric, non-negative, and for a rigid translation has exactly the integrated mass; the nodal loads from body forces and tractions sum to the reported total load, in all modes.",
  "all shape-function values summing to one, any number of nodes, all loads",
  "Conservation over all elements and loads; a missing weight is invisible in planar tests.",
  ["Elasticity/Elasticity.C:Elasticity::formMassMatrix", "Elasticity/Elasticity.C:Elasticity::formBodyForce", "Elasticity/Elasticity.C:Elasticity::evalBou"])
p("C28", "Element matrices and vectors requested by a solution mode exist",
  "For every solution mode and every integrand, each matrix and vector slot that evaluation writes to has been allocated by the element container created for that mode.",
  "all solution modes, all integrand settings, all call sequences",
  "The mode/slot table has hundreds of combinations; an out-of-range slot is undefined behaviour, not a failed assertion.",
  ["Elasticity/ElasticBase.C:ElasticBase::setMode", "Elasticity/Elasticity.C:Elasticity::getLocalIntegral", "Elasticity/KirchhoffLove.C:KirchhoffLove::setMode", "Elasticity/KirchhoffLove.C:KirchhoffLove::getLocalIntegral", "Elasticity/LinearElasticity.C:LinearElasticity::initElement"])
p("C29", "Buffered element matrices reproduce the assembled ones",
  "When left-hand-side matrices are buffered and reused, every later element gets back exactly the matrices stored for that element, and nothing is read when nothing was stored.",
  "all numbers of elements, all modes, all orders of element visits",
  "Reuse order and mode switching are history dependent.",
  ["Elasticity/LinearElasticity.C:LinearElasticity::initLHSbuffers", "Elasticity/LinearElasticity.C:LinearElasticity::initElement", "Elasticity/LinearElasticity.C:LinearElasticity::finalizeElement"])
# ---------------------------------------------------------------- results
p("C30", "Result labels describe the values in their column",
  "For every component of the secondary solution the label returned for index i describes the value stored at index i, for all dimensions, materials and output options.",
  "all dimensions, output options, numbers of internal variables, all indices",
  "Reference files compare numbers, not their meaning; the combination of options that swaps labels is rarely run.",
  ["Elasticity/Elasticity.C:Elasticity::evalSol2", "Elasticity/Elasticity.C:Elasticity::getField2Name", "Elasticity/Elasticity.C:Elasticity::getNoFields"])
p("C31", "Norm labels describe the integrated norm quantities",
  "For every norm group and index the label names the quantity accumulated at that index, with and without an analytical solution and for any number of extraction functions and projections; effectivity indices are formed from the energy and error entries they name.",
  "all option combinations, all indices",
  "Off-by-one labels never fail numerically.",
  ["Elasticity/Elasticity.C:ElasticityNorm::evalInt", "Elasticity/Elasticity.C:ElasticityNorm::getName", "Linear/KirchhoffLovePlate.C:KirchhoffLovePlateNorm::evalInt", "Linear/KirchhoffLovePlate.C:KirchhoffLovePlateNorm::evalBou"])
p("C32", "Extreme-value reporting is schedule independent",
  "The extreme absolute value reported for a result component is the maximum over all evaluated points regardless of the order in which points (threads, patches) are visited.",
  "all orders of evaluation, any number of points",
  "All interleavings.",
  ["Elasticity/Elasticity.C:Elasticity::evalSol2"])
p("C33", "Solution component names stay within the component set",
  "Asking for the name of any primary solution component, with or without prefix and in any mode, returns a name and never indexes outside the name table.",
  "all indices, prefixes and modes",
  "The failing index is computed by unsigned subtraction in one mode only.",
  ["Elasticity/Elasticity.C:Elasticity::getField1Name", "Elasticity/ElasticBase.C:ElasticBase::getField1Name"])
# ---------------------------------------------------------------- drivers
p("C34", "Result dumps follow the requested save interval",
  "During a nonlinear simulation results are saved at the first converged step at or after each multiple of the save interval, never twice for one step, and the next save time is strictly later than the current time.",
  "all step sequences, save intervals, stop times",
  "Depends on the accumulation of arbitrary step sizes.",
  ["Elasticity/NonlinearDriver.C:NonlinearDriver::solveProblem"])
p("C35", "Step cut-back restarts from the last converged state",
  "When an increment diverges the driver restores the previous converged solution and time before retrying with a smaller step, keeps doing so until convergence or refusal of further cut-backs, and never accepts a diverged state.",
  "all sequences of converge/diverge outcomes",
  "A divergence pattern cannot be prescribed in an integration test.",
  ["Elasticity/NonlinearDriver.C:NonlinearDriver::solveProblem"])
p("C36", "Every exit status identifies its cause",
  "Each failure path of the nonlinear and dynamic drivers returns its own status; zero is returned only when all steps converged and all requested output was written.",
  "all outcome sequences of the steps and output calls",
  "Combinations of simultaneous failures are not exercised.",
  ["Elasticity/NonlinearDriver.C:NonlinearDriver::solveProblem", "Elasticity/NewmarkDriver.h:NewmarkDriver::solveProblem"])
p("C37", "Arc-length control accepts only finite, converged states on the constraint",
  "The arc-length driver reports convergence only if the residual norm is below tolerance (never for NaN), the predictor satisfies the arc-length constraint exactly, and the corrector keeps the increment orthogonal to the tangent as specified.",
  "all iteration histories, all displacement and load increments, NaN and infinities included",
  "NaN handling and constraint exactness are for-all statements.",
  ["Elasticity/ArcLengthDriver.C:ArcLengthDriver::solveStep", "Elasticity/ArcLengthDriver.C:ArcLengthDriver::checkConvergence", "Elasticity/ArcLengthDriver.C:ArcLengthDriver::solveLinearizedSystem"])
# ---------------------------------------------------------------- contact
p("C38", "Rigid-body gaps are signed distances with unit normals",
  "For rigid spheres and cylinders the gap is the signed distance from the surface, the normal is the unit outward direction, and the geometric stiffness is symmetric, positive semi-definite and annihilates the normal.",
  "all positions, radii and configurations away from the centre/axis",
  "A geometric identity over all points.",
  ["FiniteDeformation/RigidBody.C:RigidSphere::evalGap", "FiniteDeformation/RigidBody.C:RigidCylinder::evalGap", "FiniteDeformation/RigidBody.C:RigidBody::geometricStiffness"])
p("C39", "Contact forces on a rigid plane act at the projection of the contact point",
  "The weights distributing a contact force to the master points of a rigid plane sum to one and reproduce the projection of the slave point onto the plane.",
  "all plane configurations and all slave points",
  "Wrong weights keep force balance and only break moment balance off the symmetric positions.",
  ["FiniteDeformation/RigidBody.C:RigidPlane::evalGap"])
p("C40", "Contact residual and tangent are self-equilibrated and translation invariant",
  "Contact forces on slave and master sum to zero, and the contact stiffness annihilates a common rigid translation of slave and master and is symmetric positive semi-definite for active points.",
  "all shape functions summing to one, any number of nodes and masters",
  "An algebraic identity over all element sizes.",
  ["FiniteDeformation/MortarContact.C:accResAndTangent", "FiniteDeformation/MortarContact.C:assResAndTangent"])
p("C41", "The active contact set is a function of the current state",
  "A contact node is active exactly when its weighted gap (plus multiplier) indicates penetration, independent of how many times and in which order elements were assembled or the iteration was restarted.",
  "all assembly orders, all restart histories",
  "Stale flags appear only on re-entry of an increment.",
  ["FiniteDeformation/MortarContact.C:MortarContact::initIntegration", "FiniteDeformation/MortarContact.C:MortarContact::finalize", "FiniteDeformation/MortarContact.C:MortarContact::assemble"])
# ---------------------------------------------------------------- beams, bars, cables
p("C42", "The beam stiffness is symmetric, positive semi-definite and free of rigid-body strain energy",
  "The two-node beam stiffness matrix is symmetric, produces no force for all six rigid-body motions, and non-negative energy for every displacement, also after shear-centre and eccentricity transformations.",
  "all section stiffnesses, shear factors, lengths, eccentricities, all 12-component displacements",
  "A matrix property over 12 unknowns and 10 parameters.",
  ["Beam/ElasticBeam.C:ElasticBeam::getMaterialStiffness", "Beam/ElasticBeam.C:eccTransform", "Beam/ElasticBeam.C:shearTransform"])
p("C43", "The beam geometric stiffness equilibrates the axial force",
  "The geometric stiffness is symmetric, vanishes for rigid translation and for a small rigid rotation yields exactly the transverse force couple of the axial force, with zero end moments.",
  "all axial forces, lengths and shear parameters",
  "Exactness of coefficients is a polynomial identity.",
  ["Beam/ElasticBeam.C:ElasticBeam::getGeometricStiffness"])
p("C44", "The beam mass matrix has the rigid-body inertia of the beam",
  "Consistent and lumped beam mass matrices are symmetric and give total translational mass rho*A*L; the consistent one gives the exact rotary inertia about an end for rigid rotation; the weight from gravity sums to mass times gravity.",
  "all densities, areas, lengths, inertias, gravity vectors",
  "A conservation identity over all parameters.",
  ["Beam/ElasticBeam.C:ElasticBeam::getMassMatrix", "Beam/ElasticBeam.C:ElasticBeam::evalInt"])
p("C45", "Beam section input gives geometrically valid properties",
  "For pipes and boxes the computed area and inertias equal the integrals over the actual cross section and are positive for valid wall thicknesses; a constant property function gives the same stiffness and mass as the constant.",
  "all radii, sizes and wall thicknesses",
  "Invalid thickness silently gives wrong or negative values.",
  ["Beam/BeamProperty.C:BeamProperty::parsePipe", "Beam/BeamProperty.C:BeamProperty::parseBox", "Beam/BeamProperty.C:BeamProperty::eval"])
p("C46", "Bar internal forces and tangent derive from one strain energy",
  "For each strain measure the bar's nodal forces are the gradient of a strain energy, sum to zero and are objective; the tangent is their exact derivative; material and geometric parts are separately translation invariant.",
  "all bar positions, stiffnesses, strain measures",
  "Tangent exactness over all configurations.",
  ["Beam/ElasticBar.C:ElasticBar::evalInt"])
p("C47", "Bar mass does not couple directions",
  "A bar's mass matrix accelerates each direction independently and carries the total mass line-mass times length.",
  "all bar masses and accelerations",
  "Cross-coupling between directions is invisible in axial tests.",
  ["Beam/ElasticBar.C:ElasticBar::evalInt"])
p("C48", "Cable strain and curvature derivatives are exact",
  "The first and second derivatives of axial strain and of the unit normal used for the cable's forces and tangent are the derivatives of the quantities themselves.",
  "all configurations, any number of nodes",
  "Derivative exactness over all curves.",
  ["Beam/ElasticCable.C:ElasticCable::evalInt"])
p("C49", "End moments on cables are pure couples and their load stiffness is exact",
  "A concentrated end moment is applied as a force couple with zero resultant and the given moment, and the load-correction stiffness is minus the derivative of that load, at both ends.",
  "all end configurations, both ends",
  "A sign at one end only affects convergence speed.",
  ["Beam/ElasticCable.C:ElasticCable::evalBou"])
# ---------------------------------------------------------------- plates and shells
p("C50", "The plate formulations give the plate bending energy",
  "The three plate stiffness versions return the quadratic forms they document: full isotropic bending energy, and its two constant-D tensor forms, which coincide up to the Gaussian-curvature term; all are symmetric and non-negative.",
  "all curvatures, thicknesses, moduli, any number of nodes",
  "A quadratic-form identity.",
  ["Linear/KirchhoffLovePlate.C:KirchhoffLovePlate::evalK1", "Linear/KirchhoffLovePlate.C:KirchhoffLovePlate::evalK2", "Linear/KirchhoffLovePlate.C:KirchhoffLovePlate::formBmatrix"])
p("C51", "Rigid motions of a shell cause no strain",
  "Membrane strains and curvatures of the linear shell vanish for every infinitesimal rigid motion, on every curved geometry whose parametric area element exceeds the normalisation tolerance, and for every element size.",
  "all surface geometries, all infinitesimal rigid motions, any number of nodes",
  "Tests on single geometries cannot exclude curvature-dependent spurious strain.",
  ["Shell/KirchhoffLoveShell.C:KirchhoffLoveShell::formBmatrix", "Shell/KirchhoffLoveShell.C:KirchhoffLoveShell::getMetrics"])
p("C52", "Recovered shell moments agree with the moments used for equilibrium",
  "The moments recovered for output are those used in the internal forces; in particular a rigid rotation recovers zero moments in the nonlinear shell, and top/bottom stresses carry the sign belonging to their surface for linear and nonlinear shells.",
  "all deformations including finite rotations",
  "Recovery is post-processing; equilibrium tests do not see it.",
  ["Shell/NLKirchhoffLoveShell.C:NLKirchhoffLoveShell::evalSol", "Shell/NLKirchhoffLoveShell.C:NLKirchhoffLoveShell::evalKandS", "Shell/KirchhoffLoveShell.C:KirchhoffLoveShell::evalSol"])
p("C53", "The nonlinear shell tangent is the derivative of its strains",
  "First and second variations of membrane strain and of the unit normal used in the nonlinear shell are the exact derivatives.",
  "all metrics and variations",
  "Derivative exactness over all configurations.",
  ["Shell/NLKirchhoffLoveShell.C:NLKirchhoffLoveShell::evalKandS"])
p("C54", "Line loads are applied exactly once",
  "A line load along an element border in a plate contributes its full resultant, whether the border is interior or on the patch boundary.",
  "all knot grids, line positions and ranges",
  "Half-weighting relies on both neighbours being visited.",
  ["Shell/SIMKLShell.C:ElmBorderChk::maskBorder", "Linear/KirchhoffLovePlate.C:KirchhoffLovePlate::evalInt"])
# ---------------------------------------------------------------- analytical solutions
p("C55", "Analytical stress fields are in equilibrium and satisfy their boundary conditions",
  "The closed-form 2D reference solutions (plate with hole, cantilever, curved beam, heated pipe) satisfy the equilibrium equations at every point of the domain and the traction-free conditions on the stated boundaries.",
  "all points of the domain, all parameters",
  "A reference solution is trusted by the tests themselves; it must be settled independently for all points.",
  ["Linear/AnalyticSolutions.C:Hole", "Linear/AnalyticSolutions.C:CanTS", "Linear/AnalyticSolutions.C:CurvedBeam", "Linear/AnalyticSolutions.C:Pipe"])
p("C56", "Plate reference solutions satisfy the plate equations",
  "The series solution's moment derivatives are the exact derivatives of the moments and every double-index term within the cut-off is summed once; the circular-plate solution satisfies moment equilibrium and its deflection gives its moments.",
  "all points, parameters, cut-offs",
  "Reference solutions are not themselves tested.",
  ["Linear/AnalyticSolutions.C:NavierPlate::addTerms", "Linear/AnalyticSolutions.C:NavierPlate::evaluate", "Linear/AnalyticSolutions.C:CircularPlate"])
# ---------------------------------------------------------------- configuration and model set-up
p("C57", "Command-line formulation options are order independent",
  "Selecting a finite-deformation formulation on the command line gives the most specific formulation requested, whatever the order of the options.",
  "all option sequences",
  "Permutations of options.",
  ["NLargs.C:NLargs::parseArg", "FiniteDeformation/NLoptions.C:NLoptions::parse"])
p("C58", "Local coordinate systems are orthonormal and right-handed",
  "Cylindrical and spherical result systems return proper orthonormal transformations at every point where they are defined, also on the axis and at poles.",
  "all points",
  "Degenerate positions are measure zero for random tests.",
  ["Elasticity/LocalSystems.C"])
p("C59", "Texture-based material lookup is total and well-defined",
  "A material selected from an image is the first listed intensity range containing the pixel, the pixel index is always inside the image for parameters in [0,1], and the default is used otherwise.",
  "all images, ranges, parameter values",
  "Boundary pixels and overlapping ranges.",
  ["Elasticity/IsotropicTextureMat.C:IsotropicTextureMat::findMaterial"])
p("C60", "Boundary reactions are those of the requested boundary",
  "Asking for the reaction of boundary i (one-based) returns the resultant of boundary i, and fails for indices that do not exist; forces summed over sections equal the sum over the union of nodes, and the total reaction force counts every supported node once.",
  "all boundary counts and indices, all node sets",
  "Off-by-one between header contract and code.",
  ["Elasticity/SIMElasticity.C:getBoundaryReactions", "Elasticity/SIMElasticity.C:printBoundaryForces"])
p("C61", "The reaction reference point is independent of node order",
  "The automatic moment reference point is determined by the set of boundary nodes only.",
  "all node sets and visiting orders",
  "Permutations of nodes.",
  ["Elasticity/SIMElasticity.C:preprocessB"])
p("C62", "Material and section look-up never reads an empty table",
  "Selecting the material of a patch works for every patch index, also if fewer materials than patches were given, or none.",
  "all table sizes and indices",
  "Unsigned wrap-around on the empty table.",
  ["Elasticity/SIMElasticity.C:initMaterial", "Shell/SIMKLShell.C:SIMKLShell::initMaterial", "Linear/SIMLinElBeamC1.C:SIMLinElBeamC1::initMaterial"])
p("C63", "Rigid couplings preserve rigid motion",
  "Constraint equations generated for rigid couplings reproduce the displacement of every slave node under an arbitrary small rigid motion of the master.",
  "all node positions and rigid motions",
  "An identity over all geometries.",
  ["Elasticity/SIMRigid.C"])
p("C64", "Visualisation dumps are numbered uniquely",
  "Within a simulation each saved step gets a distinct, increasing dump number and exactly the steps that are multiples of the save increment are dumped.",
  "all step counts and save increments",
  "Unbounded sequences of steps.",
  ["Elasticity/SIMElasticityWrap.C:saveStep"])
p("C65", "Graded beam knots are valid",
  "The mid-point focused knot generator yields strictly increasing interior knots, symmetric about the mid-point, for any number of levels.",
  "all numbers of levels",
  "Unbounded refinement level.",
  ["Linear/SIMLinElBeamC1.C:SIMLinElBeamC1::parseXi"])
p("C66", "Modal simulations return to the full equation system after every step",
  "Whatever number of iterations each step takes, after the solution of a step has been expanded the full equation system is active, and modal solves only happen on the modal system.",
  "all sequences of steps and iteration counts",
  "A parity property of an unbounded call sequence.",
  ["Linear/SIMLinElModal.h:assembleSystem", "Linear/SIMLinElModal.h:expandSolution", "Linear/SIMLinKLModal.C:SIMLinKLModal::assembleSystem"])
p("C67", "Beam elements interpret their element data as created",
  "The element data object allocated for a beam element is of the kind the beam later assumes when reading its local axes, for every sequence of solution modes.",
  "all sequences of mode changes",
  "A wrong static cast after a particular mode sequence is undefined behaviour.",
  ["Beam/ElasticBeam.C:ElasticBeam::getLocalIntegral", "Beam/ElasticBeam.C:ElasticBeam::getLocalAxes"])

p("C68", "Hyperelastic stress and tangent derive from the stored energy",
  "The Cauchy stress returned by the hyperelastic material is the derivative of its returned energy density, and the returned tangent is the spatial derivative of that stress, at every deformation gradient with positive determinant.",
  "all material versions, all parameters, all deformation gradients, all directions",
  "Derivative identities over a nine-dimensional continuum; a small error only degrades Newton convergence.",
  ["FiniteDeformation/NeoHookeMaterial.C:stdNeoHooke", "FiniteDeformation/NeoHookeMaterial.C:modNeoHooke"])
p("C69", "Hyperelastic evaluation stays inside its matrices",
  "Evaluating the hyperelastic material writes only inside the constitutive matrix it has sized, in two and three dimensions.",
  "all dimensions, stress component counts and material versions",
  "Out-of-bounds writes usually go unnoticed.",
  ["FiniteDeformation/NeoHookeMaterial.C:stdNeoHooke", "FiniteDeformation/NeoHookeMaterial.C:modNeoHooke"])
p("C70", "Yield-function derivatives are exact",
  "The partial derivatives of the yield function with respect to the stress invariants reported by the plastic material are its derivatives.",
  "all yield criteria, parameters and stress states away from zero deviatoric stress",
  "Derivative identities over a continuum.",
  ["FiniteDeformation/PlasticMaterial.C:PlasticMaterial::PlasticPoint::yfunc"])
p("C71", "The return mapping uses a true Newton correction",
  "The correction computed in each local return-mapping iteration reduces every residual component at unit rate: the derivative of the residual along the correction is minus the residual.",
  "all stress states, hardening laws, yield criteria, with and without kinematic hardening",
  "A wrong Jacobian still converges for mild data.",
  ["FiniteDeformation/PlasticMaterial.C:PlasticMaterial::PlasticPoint::evaluate"])
p("C72", "The plastic tangent is rotated energy-consistently",
  "The tangent computed in the principal directions is transformed to the global axes such that every strain has the same quadratic form in both frames, and stays symmetric.",
  "all principal directions, all tangents, all strains",
  "Identity over a continuum of frames.",
  ["FiniteDeformation/PlasticMaterial.C:PlasticMaterial::PlasticPoint::evaluate"])
p("C73", "The reported strain energy of a plastic material depends only on the state for an elastic law",
  "For a material that responds elastically the strain energy reported by the plastic material does not depend on how the deformation was divided into increments.",
  "all strain paths with varying volume",
  "Path independence quantifies over all paths.",
  ["FiniteDeformation/PlasticMaterial.C:PlasticMaterial::evaluate", "FiniteDeformation/PlasticMaterial.C:PlasticMaterial::PlasticPoint::energyIntegral"])

p("C74", "Axisymmetric total Lagrangian strain includes the large-displacement hoop strain",
  "In an axisymmetric total Lagrangian analysis the hoop strain is ((1+u_r/r)^2-1)/2 and the strain-displacement matrix is its exact linearisation, for elements of every size and position.",
  "all radii, displacements, element sizes and numbers of nodes",
  "The finite-displacement term is invisible at small load; quantifies over all radii and displacements.",
  ["FiniteDeformation/NonlinearElasticityTL.C:NonlinearElasticityTL::kinematics", "Elasticity/Elasticity.C:Elasticity::formBmatrix"])
p("C75", "The three-field element's coupling blocks are the exact linearisation of its residuals",
  "The coupling stiffness blocks between displacements, volume change and pressure are minus the derivative of the volume-change and pressure residuals the same element assembles, in 2D, axisymmetric and 3D, for every state including the undeformed one.",
  "all deformation states, volume changes, pressures, all numbers of displacement and pressure nodes",
  "A wrong linearisation still converges on easy problems; the claim is over all states.",
  ["FiniteDeformation/NonlinearElasticityULMixed.C:NonlinearElasticityULMixed::evalIntMx"])
p("C76", "The mixed-form constitutive matrix is the deviatoric/volumetric projection of the tangent",
  "The 7x7 constitutive matrix of the mixed formulations equals the Simo-Taylor projection of the 6x6 tangent with the pressure terms added, and is symmetric whenever the tangent is.",
  "all tangents, stresses and pressures, all 49 entries",
  "49 entries over a continuum of states.",
  ["FiniteDeformation/MixedTanMat.C:MixedMat::addVolumetricTerms"])
p("C77", "The mixed stiffness kernels equal B^T D B with the extended strain operator",
  "The compiled kernels that form the mixed-formulation element stiffness add exactly B^T D B, where B has the six strain rows and the volume-change row, for plane, axisymmetric and spatial elements with any number of nodes.",
  "all 7x7 matrices D, all shape-function gradients, all numbers of nodes",
  "Identity over all matrices and element sizes.",
  ["FiniteDeformation/accKMx.f:accKMx2D", "FiniteDeformation/accKMx.f:accKMx3D"])

p("C78","External energy of the updated Lagrangian norm is the work of the tractions along the load history",
"For every sequence of boundary tractions and displacements the accumulated external energy is the trapezoidal work from rest along that sequence; evaluating the norms again without a change in configuration adds nothing; for tractions that are a symmetric linear function of the displacement it only depends on the last displacement.",
"all histories of any length, all tractions and displacements",
"A test sees one load history and cannot show independence of the path.",
["FiniteDeformation/NonlinearElasticityUL.C:ElasticityNormUL::evalBou"])

p("C79","Bending about a local axis uses the section's stiffness about that axis",
"For a beam whose section properties are given about its local axes, bending about an axis has the stiffness E times the second moment about that axis, the one that also enters the rotary inertia of the same motion.",
"all cross sections, lengths and end rotations",
"Tests with equal moments about both axes cannot see it; quantifies over all sections.",
["Beam/ElasticBeam.C:ElasticBeam::getMaterialStiffness", "Beam/ElasticBeam.C:ElasticBeam::getMassMatrix", "Beam/BeamProperty.h:BeamProperty"])
p("C80","Recovered cable forces do not depend on the parametrisation",
"The axial force and bending moment reported for a cable are unchanged when the same curve with the same displacement is described by a differently scaled parameter.",
"all curves, displacements and parameter scalings",
"A test uses one mesh, for which the parameter may happen to have unit speed.",
["Beam/ElasticCable.C:ElasticCable::evalSol"])
p("C81","Bars with fewer than three unknowns per node keep each node's components",
"When a bar element is used with one or two displacement components per node, the element vectors and matrices passed on contain exactly the entries of those components, node by node.",
"all numbers of nodes, all element matrices and vectors",
"An index error would mix entries of different nodes only for certain sizes.",
["Beam/ElasticBar.C:ElasticBar::finalizeElement"])

p("C82","Recovered plate moments and shear forces are those of the bent plate",
"The moments recovered for a plate are the first moments over the thickness of the plane-stress stresses of the bent layers, and the recovered shear forces are in moment equilibrium with the recovered moments.",
"all deflections, thicknesses and moduli, any number of nodes",
"Equilibrium and the integral are statements about all fields.",
["Linear/KirchhoffLovePlate.C:KirchhoffLovePlate::evalSol"])
p("C83","Distributed plate and shell loads and masses have the right resultant",
"A pressure or gravity load gives nodal loads weighted by the shape functions whose sum is the load that is reported as total; the mass matrix gives the kinetic energy of the interpolated velocity with the mass per area.",
"all pressures, normals, shape functions, element sizes and both numbers of unknowns per node",
"Identities over all fields and element sizes.",
["Elasticity/KirchhoffLove.C:KirchhoffLove::getPressure", "Elasticity/KirchhoffLove.C:KirchhoffLove::formBodyForce", "Elasticity/KirchhoffLove.C:KirchhoffLove::formMassMatrix"])
p("C84","The one-dimensional plate has the same rigidity in all formulations",
"For a plate strip modelled in one dimension the choice of formulation version does not change the bending stiffness.",
"all moduli, Poisson ratios and thicknesses",
"Tests with zero Poisson ratio do not see the difference.",
["Linear/KirchhoffLovePlate.C:KirchhoffLovePlate::evalK1", "Linear/KirchhoffLovePlate.C:KirchhoffLovePlate::evalK2"])
p("C85","The shell energy is that of the isotropic shell on any parametrisation",
"The stiffness matrix of the linear shell gives the metric-invariant isotropic membrane and bending energy of the surface, so it does not depend on the parametrisation; the nonlinear shell linearised at the undeformed state is the linear shell.",
"all surfaces with regular metric, all displacements, any number of nodes",
"Tests use few, often orthogonal, parametrisations.",
["Shell/KirchhoffLoveShell.C:KirchhoffLoveShell::evalK", "Shell/KirchhoffLoveShell.C:KirchhoffLoveShell::getMetrics", "Shell/NLKirchhoffLoveShell.C:NLKirchhoffLoveShell::evalKandS"])
p("C86","Plate and flat shell report the same moments",
"For the same deflection a plate and a flat shell of the same material and thickness report the same moments.",
"all deflections, materials and thicknesses",
"Tests of each solver use their own sign convention.",
["Linear/KirchhoffLovePlate.C:KirchhoffLovePlate::evalSol", "Shell/KirchhoffLoveShell.C:KirchhoffLoveShell::evalSol"])

p("C87", "The heated-pipe reference solution satisfies thermoelasticity", "The analytical stresses of the heated pipe belong to a displacement field under plane-strain thermoelasticity with the stated conduction temperature, so that a converged analysis can approach them.", "all pipe dimensions, temperatures and material constants, all radii", "The reference solution is what the tests compare against; a wrong factor is invisible if the code under test shares it.", ["Linear/AnalyticSolutions.C:Pipe::Pipe", "Linear/AnalyticSolutions.C:Pipe::evaluate"])
p("C88", "Shell thickness functions apply to the patches they are assigned to",
  "A thickness function or constant given for a patch group in the input determines the shell thickness at every point of those patches and of no other, independently of the order in which patches are processed.",
  "all assignments of materials and thicknesses to patches, all processing orders",
  "Depends on the coincidence of two index spaces and on the processing history.",
  ["Shell/SIMKLShell.C:SIMKLShell::parse", "Shell/SIMKLShell.C:SIMKLShell::initMaterial"])
p("C89", "Projected results have storage whenever they are accessed",
  "In every simulation program, for every combination of projection, visualisation and save options, a time or load step never accesses the storage of the projected solution unless it has been allocated.",
  "all programs, options and sequences of saved and unsaved steps",
  "Front of an empty container is undefined behaviour that shows up only for particular option combinations and step sequences.",
  ["Elasticity/NonlinearDriver.C:NonlinearDriver::solveProblem", "Elasticity/NewmarkDriver.h:solveProblem", "Linear/DynamicDriver.C:dynamicSim", "Linear/MultiLoadCaseDriver.C:mlcSim", "main_NonLinEl.C:runSimulator"])
p("C90", "A failing simulation gives a non-zero exit code",
  "Each program terminates with exit code zero if and only if reading, preprocessing, solution and all requested output succeeded.",
  "all combinations of failing stages and all driver statuses",
  "Requires every failing path of every program.",
  ["main_LinEl.C:main", "main_NonLinEl.C:runSimulator", "main_ShellEl.C:main"])
p("C91", "Result files are named after the input file",
  "Geometry, deformation, solution and grid files are written next to the input file, with the name of the input file and a new extension.",
  "all input file names",
  "Infinitely many file names; the failing ones write outside the working directory or past the end of a buffer.",
  ["main_LinEl.C:main", "main_NonLinEl.C:runSimulator"])
p("C92", "Everything allocated by the linear program is released once",
  "On every termination path each heap object created by the linear program is deleted exactly once, so that files held open by it are closed.",
  "all termination paths",
  "Leaks are not visible in results.",
  ["main_LinEl.C:main"])
p("C93", "Expanding nodal vectors keeps the nodal values",
  "When the number of components per node of a projected reference solution is increased, each node keeps its old components and the new ones are zero.",
  "all vectors, numbers of nodes and numbers of components",
  "An in-place copy whose aliasing depends on the sizes.",
  ["main_LinEl.C:main"])
p("C94", "The adaptive option is honoured by all quasi-static solvers",
  "When adaptive mesh refinement is requested, the quasi-static driver chosen by the program is adaptive.",
  "all programs and solver choices",
  "A positional argument bound to the wrong parameter compiles silently.",
  ["main_NonLinEl.C:main", "main_ShellEl.C:main", "Elasticity/ArcLengthDriver.C:ArcLengthDriver"])
p("C95", "Restart output never overwrites an existing restart file",
  "The name chosen for the restart file is that of no existing file, and a name is always found.",
  "all input file names and all sets of existing files",
  "A search loop over an unbounded set of files.",
  ["main_NonLinEl.C:runSimulator", "main_ShellEl.C:runSimulator", "Linear/DynamicDriver.C:dynamicSim", "Linear/ModalDriver.C:modalSim"])
exec(open(os.path.join(os.path.dirname(os.path.abspath(__file__)), "props_more.py")).read())
out = os.path.join(os.path.dirname(os.path.abspath(__file__)), "..", "properties.jsonl")
with open(out, "w") as f:
    for x in P: f.write(json.dumps(x) + "\n")
print(len(P))
