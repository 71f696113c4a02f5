#!/usr/bin/env python3
"""Print, for every theorem named in MANIFEST.json, what it assumes.

Needs the theories to be built.  Writes ASSUMPTIONS.md.  Run from /verif."""
import json, re, glob, subprocess, os, tempfile

manifest = json.load(open('MANIFEST.json'))
theorems = [t for c in manifest['claims'] for t in c['theorems']]
where = {}
for f in glob.glob('rocq/theories/Props_*.v'):
    for t in re.findall(r'^Theorem (C\d\d_\w+)', open(f).read(), re.M):
        where[t] = os.path.basename(f)[:-2]
src = 'From Verif Require ' + ' '.join(sorted(set(where.values()))) + '.\n'
for t in theorems:
    src += f'Check Verif.{where[t]}.{t}.\nPrint Assumptions Verif.{where[t]}.{t}.\n'
d = tempfile.mkdtemp()
open(d + '/pa.v', 'w').write(src)
r = subprocess.run(['coqc', '-Q', 'rocq/theories', 'Verif', d + '/pa.v'], capture_output=True, text=True)
if r.returncode:
    raise SystemExit(r.stderr)
out, pos, starts = r.stdout, 0, []
for t in theorems:
    m = re.compile(r'^(\w+\.)*' + t + r'\b', re.M).search(out, pos)
    starts.append(m.start())
    pos = m.end()
groups = {}
for t, a, b in zip(theorems, starts, starts[1:] + [len(out)]):
    seg = out[a:b]
    if 'Closed under the global context' in seg:
        ax = ()
    else:
        seg = seg[seg.index('Axioms:'):]
        ax = tuple(sorted({x or y for x, y in re.findall(r'^([\w.]+)\s*$|^([\w.]+) :', seg, re.M)}))
    groups.setdefault(ax, []).append(t)
with open('ASSUMPTIONS.md', 'w') as f:
    f.write('# What each theorem assumes\n\nGenerated by tools/assumptions.py from `Print Assumptions`.\n')
    for ax, ts in sorted(groups.items()):
        f.write('\n## ' + (', '.join(f'`{a}`' for a in ax) or 'Nothing (closed under the global context)') + '\n\n')
        f.write(', '.join(ts) + '\n')
