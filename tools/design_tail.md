
## What is modelled and what is not

Modelled (line ranges in the comments of `Model/*.v`):

* Elasticity: LinIsotropic, thermal stress recovery, Elasticity (labels, norms, kinematics, loads, mass, extreme
  values, maximum tables), LinearElasticity axisymmetric handling, LocalSystems, IsotropicTextureMat, material and section tables of
  SIMElasticity, boundary forces and reactions, SIMRigid couplings, SIMElasticityWrap::saveStep, NonlinearDriver,
  ArcLengthDriver, NewmarkDriver.
* FiniteDeformation: NeoHookeMaterial, PlasticMaterial, LinearMaterial kinematics where used, total and updated Lagrangian elements,
  F-bar, ULMX, ULMixed elements and their Fortran kernels, contact (rigid bodies, mortar assembly, active set), NLargs.
* Beam: ElasticBeam, BeamProperty, ElasticBar, ElasticCable. Shell: KirchhoffLoveShell, NLKirchhoffLoveShell, SIMKLShell tables
  and line loads. Linear: KirchhoffLovePlate, AnalyticSolutions, SIMLinElBeamC1::parseXi, SIMLinElSup, modal drivers.
* Programs: argument loop of main_NonLinEl, the run sequence of the three programs as far as needed for C89-C95.

Not modelled: rounding in the numeric kernels; the IFEM library (basis functions, integration loops, SAM assembly, equation
solvers, XML and text parsing beyond what is listed, HDF5 and VTF output); the adaptive
mesh refinement step itself; dual solutions and extraction functions except their names; the tests and cmake files.
The fallback of the cable element for straight configurations is an oracle.

## Trusted base

* Coq 8.16.1 kernel. No axioms of our own, no admitted lemmas, no disabled checks.
* Standard library axioms. `ASSUMPTIONS.md` (generated by `tools/gen_assumptions.py`) lists the output of
  `Print Assumptions` for every property theorem. They are at most `ClassicalDedekindReals.sig_forall_dec`,
  `ClassicalDedekindReals.sig_not_dec`, `FunctionalExtensionality.functional_extensionality_dep` and `Classical_Prop.classic`;
  about a quarter of the theorems (mostly on drivers, tables, parsers and programs) need none.
* Libraries used: standard library; Coquelicot (`is_derive`, `auto_derive`, `is_RInt`), which adds no axioms.
* The transcription of the C++/Fortran text into the model.
* Assumptions on IFEM, which is not part of the repository:
  * Voigt order xx,yy,zz,xy,yz,xz (3D); xx,yy,xy or xx,yy,zz,xy (2D); matrices are 1-based and stored column by column.
  * SymmTensor is zero-initialised; Tensor::inverse returns the determinant and leaves the inverse; SymmTensor::transform(T) is T s T^t.
  * Order of SIM::SolutionMode: INIT, STATIC, ARCLEN, DYNAMIC, VIBRATION, BUCKLING, STIFF_ONLY, MASS_ONLY, RHS_ONLY, INT_FORCES, RECOVERY, NORMS;
    LINEAR = 1, NONLINEAR = 2, TOTAL_LAGRANGE = 3 in the formulation enumeration.
  * TimeStep::hasReached(t) is time + tolerance > t; TimeStep::cutback is an oracle; NonLinSIM::advanceStep copies the solution to the previous one;
    updateConfiguration adds the increment; NewmarkSIM assembles and solves once per iteration and expands once per converged step.
  * Vec3::normalize(tol) divides by the length unless it is at most tol (1e-16 by default); Vec3(a,b) is the cross product; Vec3::isZero is an oracle.
  * SAM assembly adds element blocks to the equations of their nodes; utl::vector::resize keeps old values, resize(n,true) clears.
  * utl::transform(A,T) is T A T^t block by block; element Hessians have columns ,11 ,22 ,12; Vec3*Matrix is a row vector times the matrix.
  * hypot, atan2, log, log10, pow are exact; reaction, boundary node and norm queries are oracles.
  * SIMargsBase::parseArg is an oracle on the dimension ("-2D" sets 2, default 3); parseMaterialSet returns the property code.
  * setPatchMaterial sets the material in the integrand of the simulator it is called on; getTopItemNodes adds the nodes of an item to the list;
    evalSolution on a patch gives as many columns as its tesselation has points; std::sort sorts.
  * Assigning a 3D SymmTensor to one of lower dimension copies the common components; utl::invert returns the inverse; the values of
    utl::Pascal are input; SymmTensor::isZero is an oracle.
  * C strings: strtok and strcat as in the C standard; std::set, std::map ordered by key.

## Findings

Properties that are false of the code, with the theorem giving the witness:

@FINDINGS@
