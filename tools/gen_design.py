#!/usr/bin/env python3
"""Writes DESIGN.md from tools/design_head.md, the per-property plan below, MANIFEST.json and tools/design_tail.md."""
import json, os
root = os.path.dirname(os.path.dirname(os.path.abspath(__file__)))
PLAN = {}
def d(i, model, proof): PLAN[i] = (model, proof)
d("C01", "LinIsotropic: constitutive matrix of all five modes on bounded matrices", "entrywise evaluation, completing squares")
d("C02", "LinIsotropic: inverse matrix", "field identities entry by entry")
d("C03", "LinIsotropic against Spec/Hooke (3D law in tensor form)", "condensation of the 3D law, field")
d("C04", "NuGuard: the guard over binary64 (`spec_float`)", "case analysis of IEEE comparison")
d("C05", "LinIsotropic: constant, field, function and ageing stiffness look-ups", "case analysis; witness")
d("C06", "Thermal: stress recovery with temperature", "comparison with the 3D thermoelastic law; witness")
d("C07", "NeoHooke: volumetric energies", "`is_derive`")
d("C08", "NeoHooke: stress and tangent on 3x3 tensors", "tensor algebra, rotation invariance")
d("C09", "NeoHooke: parameter set-up as state transformer", "induction over set-ups; witness")
d("C10", "Plastic, NeoHooke: parameter conversion", "field; witness")
d("C11", "Plastic: yfunc branch by branch", "derivatives")
d("C12", "History: plastic point as state machine", "invariant over event sequences")
d("C13", "History: commit rule", "invariant; witness")
d("C14", "Plastic: energy integral fold", "telescoping induction")
d("C15", "Plastic: parameter lists with bounds checked access", "list bounds; witness")
d("C16", "Plastic: yield criteria and trial check", "case analysis; witness")
d("C17", "Continuum: kinematics for any node list", "bilinear algebra")
d("C18", "Continuum: the two internal force forms", "sums over nodes")
d("C19", "Continuum: Fortran stiffness kernels", "entrywise; witness")
d("C20", "Mixed: F-bar A-matrices", "entrywise; witness")
d("C21", "Mixed: volume-modified deformation gradients", "determinant identities")
d("C22", "Mixed: sampling grid", "integer roots")
d("C23", "Mixed: DOF map", "index arithmetic, bijection")
d("C24", "Continuum: traction pull-back", "cofactor algebra (Nanson)")
d("C25", "Continuum: load and load-gradient writes", "frame conditions; witness")
d("C26", "Continuum: geometric stiffness", "linearity; witness")
d("C27", "Continuum: mass and nodal loads", "sums with partition of unity")
d("C28", "Modes: slot tables and mode sequences", "case analysis over all modes, induction over call sequences")
d("C29", "Modes: element matrix buffers", "induction over visit sequences")
d("C30", "Labels: columns and labels as functions of the options", "index arithmetic; witnesses")
d("C31", "Norms: accumulated entries and their names", "index arithmetic; witnesses")
d("C32", "Labels: maximum tables as folds", "permutation invariance; witness")
d("C33", "Labels: component names", "case analysis; witness")
d("C34", "Driver: save logic", "induction over steps")
d("C35", "Driver: cut-back loop with oracle outcomes", "trace invariants")
d("C36", "Driver: statuses of both drivers", "case analysis per step, induction")
d("C37", "ArcLength: convergence test over `spec_float`, updates over R", "case analysis, algebra")
d("C38", "Rigid: spheres, cylinders", "algebra of distances")
d("C39", "Rigid: planes and lines", "algebra; witness")
d("C40", "Mortar: residual and tangent for any node lists", "sums")
d("C41", "Mortar: active set", "case analysis, permutation invariance; witness")
d("C42", "Beam: stiffness with eccentricities", "sum of squares, congruence")
d("C43", "Beam: geometric stiffness", "integrals")
d("C44", "Beam: mass", "integrals, congruence")
d("C45", "Section: section input", "area integrals (Coquelicot)")
d("C46", "Bar: all strain measures", "`is_derive` of the energy")
d("C47", "Bar: mass", "entrywise; witness")
d("C48", "Cable: strain and curvature", "`is_derive`")
d("C49", "Cable: end moments", "algebra; witness")
d("C50", "Plate: three versions", "through-thickness integral")
d("C51", "Shell: membrane and bending strains", "sums over nodes")
d("C52", "Shell: stress recovery", "algebra; witnesses")
d("C53", "Shell: nonlinear forces and tangent", "`is_derive`")
d("C54", "LineLoad: element border checks", "counting; witness")
d("C55", "Analytic: stress fields", "partial derivatives")
d("C56", "Analytic: plate series and circular plate", "term-wise derivatives; witnesses")
d("C57", "Options: argument loops as folds", "induction, permutations; witnesses")
d("C58", "LocalSys", "vector algebra; witness")
d("C59", "Texture: interval map", "ordered-map invariants; witnesses")
d("C60", "Boundary: section forces, total reaction", "sums over nodes with multiplicity; witnesses")
d("C61", "Boundary: reference point", "fold with minimum; witness")
d("C62", "Tables: material look-up", "index arithmetic with unsigned wrap; witness")
d("C63", "Couplings: reading and creation of general couplings; the equations of rigid couplings are made in IFEM and not expressible here", "ordered-map invariant; rigid motion algebra; witness")
d("C64", "Dumps: saveStep with truncating division", "induction over steps; witnesses")
d("C65", "Knots: the two loops over Q with fuel", "loop invariants, parity argument")
d("C66", "Modal: active system as two-valued state, all uses recorded as events", "induction over iterations and steps")
d("C67", "Beam: element data kinds per mode", "case analysis over mode sequences; witness")
d("C68", "NeoHooke", "`is_derive` along arbitrary directions")
d("C69", "NeoHooke on bounded matrices", "bounds; witness")
d("C70", "Plastic: yield function gradients", "`is_derive`")
d("C71", "ReturnMap: local Newton system", "derivatives; witnesses")
d("C72", "ReturnMap: tangent rotation", "index sums")
d("C73", "Plastic: reported energy", "algebra; witness")
d("C74", "Continuum: axisymmetric total Lagrangian", "algebra; witness")
d("C75", "Mixed: three-field residuals", "`is_derive`; witness")
d("C76", "Mixed: extended constitutive matrix", "entrywise")
d("C77", "Mixed: Fortran kernels", "entrywise, node lists")
d("C78", "Norms: external energy", "telescoping induction")
d("C79", "Section and Beam: axes of section and element", "energy identity; witness")
d("C80", "Cable: recovery", "scaling algebra; witness")
d("C81", "Bar: reductions", "index arithmetic")
d("C82", "Plate: recovery", "integrals, derivatives")
d("C83", "Plate/Shell: loads and masses", "sums")
d("C84", "Plate: one dimension", "algebra; witness")
d("C85", "Shell: energy on any parametrisation", "metric tensor algebra")
d("C86", "Plate and Shell recovery", "algebra; witness")
d("C87", "Analytic: heated pipe", "derivatives; witness")
d("C88", "Tables: shell thickness", "map invariants; witnesses")
d("C89", "Programs: storage per program", "exact characterisation over step lists; witnesses")
d("C90", "Programs: stage lists and exit codes", "case analysis, range of driver statuses; witnesses")
d("C91", "FileNames: C-string operations with buffer capacity", "induction over extensions; witnesses")
d("C92", "Programs: captured pointers", "case analysis; witness")
d("C93", "Expand: in-place loops on index maps", "loop invariants with the aliasing made explicit; witness")
d("C94", "Programs: constructor arguments", "case analysis; witness")
d("C95", "FileNames: search for a free name with fuel", "pigeonhole; witnesses")
exec(open(os.path.join(root, 'tools', 'design_more.py')).read()) if os.path.exists(os.path.join(root, 'tools', 'design_more.py')) else None
props = [json.loads(l) for l in open(os.path.join(root, 'properties.jsonl'))]
man = {c['property']: c for c in json.load(open(os.path.join(root, 'MANIFEST.json')))['claims']}
out = [open(os.path.join(root, 'tools', 'design_head.md')).read()]
out.append('| Id | Property | Modelled as | Proof | Status |\n|----|----|----|----|----|\n')
for p in props:
    m, pr = PLAN.get(p['id'], ('', ''))
    c = man.get(p['id'])
    out.append('| %s | %s | %s | %s | %s |\n' % (p['id'], p['title'], m, pr, c['status'] if c else 'planned'))
missing = [p['id'] for p in props if p['id'] not in PLAN]
tail = open(os.path.join(root, 'tools', 'design_tail.md')).read()
finds = ''
for p in props:
    c = man.get(p['id'])
    if c and any(t.endswith('_refuted') for t in c['theorems']):
        r = ', '.join('`%s`' % t for t in c['theorems'] if t.endswith('_refuted'))
        finds += '* **%s** %s. %s (%s)\n' % (p['id'], p['title'], c.get('note', ''), r)
out.append(tail.replace('@FINDINGS@', finds))
open(os.path.join(root, 'DESIGN.md'), 'w').write('\n'.join(out[:1]) + ''.join(out[1:]))
print('missing plan:', missing)
