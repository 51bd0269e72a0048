#!/usr/bin/env python3
"""Print, for each theorem of MANIFEST.json, what Print Assumptions lists (grouped). Needs a built tree."""
import json, os, re, subprocess, glob
root = os.path.dirname(os.path.dirname(os.path.abspath(__file__)))
names = []
for c in json.load(open(root + '/MANIFEST.json'))['claims']:
    for t in c['theorems']:
        if t not in names: names.append(t)
mod = {}
for f in glob.glob(root + '/rocq/theories/*.v'):
    for m in re.finditer(r"^\s*(?:Theorem|Lemma|Corollary)\s+([\w']+)", open(f).read(), re.M):
        mod.setdefault(m.group(1), os.path.basename(f)[:-2])
src = '\n'.join(f'From Verif Require {m}.' for m in sorted(set(mod[n] for n in names)))
for n in names: src += f'\nPrint Assumptions Verif.{mod[n]}.{n}.'
open('/tmp/assume.v', 'w').write(src)
out = subprocess.run('coqc -Q theories Verif /tmp/assume.v', shell=True, capture_output=True, text=True, cwd=root + '/rocq')
out = out.stdout + out.stderr
groups, parts = {}, re.split(r'^(?=Axioms:|Closed under)', out, flags=re.M)[1:]
assert len(parts) == len(names), (len(parts), len(names), out[-500:])
for n, part in zip(names, parts):
    ax = tuple(sorted(set(re.findall(r'^([A-Za-z_][\w\.\']*)\s*(?::|$)', part, re.M)) - {'Axioms', 'Closed'}))
    groups.setdefault(ax, []).append(n)
for ax, ts in sorted(groups.items(), key=lambda p: len(p[0])):
    print('*', ', '.join(f'`{a}`' for a in ax) or 'nothing (closed under the global context)', f'({len(ts)} theorems):', ', '.join(ts), '\n')
