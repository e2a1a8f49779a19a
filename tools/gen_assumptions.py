#!/usr/bin/env python3
"""Collects the output of Print Assumptions of every property theorem into ASSUMPTIONS.md.
Run in a built tree: each Props file is compiled again into a scratch directory."""
import os, re, subprocess, tempfile, collections, concurrent.futures
root = os.path.dirname(os.path.dirname(os.path.abspath(__file__)))
th = os.path.join(root, 'rocq', 'theories')
def collect(f):
    src = open(os.path.join(th, 'Props', f)).read()
    names = re.findall(r'Print Assumptions (\w+)\.', src)
    with tempfile.TemporaryDirectory() as d:
        out = subprocess.run(['coqc', '-q', '-Q', '.', 'Verif', '-o', os.path.join(d, f + 'o'), 'Props/' + f],
                             cwd=th, capture_output=True, text=True).stdout
    blocks = re.split(r'^(?=Closed under the global context|Axioms:)', out, flags=re.M)
    blocks = [b for b in blocks if b.startswith(('Closed', 'Axioms:'))]
    assert len(blocks) == len(names), (f, len(blocks), len(names))
    rows = []
    for n, b in zip(names, blocks):
        ax = sorted(set(re.findall(r'^([A-Za-z_][\w.]*)\s*(?::|$)', b, re.M)) - {'Axioms', 'Closed'}) if b.startswith('Axioms') else []
        rows.append((n, f, tuple(ax)))
    return rows
with concurrent.futures.ThreadPoolExecutor(4) as ex:
    rows = sum(ex.map(collect, [f for f in sorted(os.listdir(os.path.join(th, 'Props'))) if f.endswith('.v')]), [])
groups = collections.OrderedDict()
for n, f, ax in sorted(rows): groups.setdefault(ax, []).append(n)
with open(os.path.join(root, 'ASSUMPTIONS.md'), 'w') as o:
    o.write('# Output of `Print Assumptions`, by theorem\n\nGenerated by `tools/gen_assumptions.py`. All axioms are those of the standard library.\n')
    for ax, ns in sorted(groups.items(), key=lambda g: len(g[0])):
        o.write('\n## ' + ('No axioms' if not ax else ', '.join('`%s`' % a for a in ax)) + ' (%d theorems)\n\n' % len(ns))
        o.write(', '.join(ns) + '\n')
print(len(rows), {len(k): len(v) for k, v in groups.items()}, list(groups))
