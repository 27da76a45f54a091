#!/usr/bin/env python3
"""Run Print Assumptions on every theorem of MANIFEST.json and write ASSUMPTIONS.md.
Needs the compiled .vo files (make in /verif/rocq)."""
import json, os, re, subprocess, glob
here = os.path.dirname(os.path.abspath(__file__))
root = os.path.dirname(here)
th = os.path.join(root, 'rocq', 'theories')
thms = []
for f in sorted(glob.glob(th + '/Props*.v')):
    mod = os.path.basename(f)[:-2]
    for n in re.findall(r'^Theorem (c\d+\w*)', open(f).read(), re.M):
        thms.append((mod, n))
src = ''.join(f'From Verif Require {m}.\n' for m in sorted({m for m, _ in thms}))
for m, n in thms:
    src += f'Definition marker := "{m}.{n}"%string.\nEval compute in marker.\nPrint Assumptions Verif.{m}.{n}.\nReset marker.\n'
src = 'From Coq Require Import String.\n' + src
out = subprocess.run(['coqtop', '-q', '-Q', th, 'Verif'], input=src, capture_output=True, text=True).stdout
res, cur = {}, None
for line in out.splitlines():
    line = re.sub(r'^(Coq < )+', '', line)
    m = re.search(r'= "(\w+\.c\d+\w*)"', line)
    if m: cur = m.group(1); res[cur] = set(); continue
    if cur is None: continue
    m = re.match(r'([A-Za-z_][\w.\']*)(?: :|$)', line)
    if m and not line.startswith(('Closed', 'Axioms', 'Welcome', 'marker')): res[cur].add(m.group(1))
groups = {}
for m, n in thms:
    groups.setdefault(tuple(sorted(res[f'{m}.{n}'])), []).append(n)
with open(os.path.join(root, 'ASSUMPTIONS.md'), 'w') as o:
    o.write('# What Print Assumptions lists for each theorem\n\nGenerated by tools/assumptions.py from the compiled files.\n\n')
    for ax, ns in sorted(groups.items()):
        o.write('## ' + (', '.join(f'`{a}`' for a in ax) if ax else 'Closed under the global context (no axioms)') + '\n\n')
        o.write(', '.join(f'`{n}`' for n in ns) + '\n\n')
print({k: len(v) for k, v in groups.items()})
