"""Write ASSUMPTIONS.md: what Print Assumptions lists for each property theorem.

Run after a build, from /verif: python3 tools/assumptions.py
"""
import glob, os, re, subprocess, tempfile

root = os.path.join(os.path.dirname(os.path.abspath(__file__)), '..')
th = os.path.join(root, 'rocq', 'theories')
names = []
for f in sorted(glob.glob(os.path.join(th, 'P_*.v'))):
    mod = os.path.basename(f)[:-2]
    for m in re.finditer(r'^Theorem (C\d+_\w+)', open(f).read(), re.M):
        names.append((mod, m.group(1)))
with tempfile.TemporaryDirectory() as d:
    v = os.path.join(d, 'A.v')
    with open(v, 'w') as g:
        for mod in sorted({m for m, _ in names}):
            g.write('From Verif Require %s.\n' % mod)
        for mod, n in names:
            g.write('Print Assumptions Verif.%s.%s.\n' % (mod, n))
    out = subprocess.run(['coqc', '-Q', th, 'Verif', v], capture_output=True, text=True)
    assert out.returncode == 0, out.stderr
blocks = re.split(r'^(?=Axioms:|Closed under the global context)', out.stdout, flags=re.M)[1:]
assert len(blocks) == len(names), (len(blocks), len(names))
groups = {}
for (mod, n), b in zip(names, blocks):
    ax = sorted(set(re.findall(r'^([A-Za-z_][\w.]*) :', b, re.M)) | set(re.findall(r'^([A-Za-z_][\w.]*)\s*$', b, re.M)) - {'Axioms'})
    groups.setdefault(tuple(ax), []).append(n)
with open(os.path.join(root, 'ASSUMPTIONS.md'), 'w') as g:
    g.write('# What Print Assumptions lists\n\nGenerated by `tools/assumptions.py` from a build. Every axiom is one of Coq\'s standard library.\n')
    for ax, ns in sorted(groups.items(), key=lambda x: (len(x[0]), x[0])):
        g.write('\n## %s\n\n%s\n' % (', '.join('`%s`' % a for a in ax) if ax else 'Closed under the global context', ', '.join(sorted(ns))))
print(len(names), [(a, len(n)) for a, n in groups.items()])
