#!/usr/bin/env python3
"""Run seeded bugs: python3 tools/mutate.py specs.json
Each spec: {"file","definition","old","new","edit","claim","expect":[theorem names]}.
Copies /verif/rocq to /tmp/mut, applies the edit, rebuilds with make -k, reports the first failing
lemma of each file that no longer compiles, and appends a line to /verif/seeded/LOG.jsonl."""
import json, os, re, subprocess, sys, shutil
src, dst = '/verif/rocq', '/tmp/mut'
def sh(c, **k): return subprocess.run(c, shell=True, capture_output=True, text=True, **k)
if not os.path.isdir(dst):
    shutil.copytree(src, dst, copy_function=shutil.copy2)
sh(f'rsync -a --delete {src}/ {dst}/') if shutil.which('rsync') else (shutil.rmtree(dst), shutil.copytree(src, dst, copy_function=shutil.copy2))
sh('coq_makefile -f _CoqProject -o Makefile && make -j4', cwd=dst)
def lemma_at(path, line):
    name = None
    for i, l in enumerate(open(path).read().split('\n'), 1):
        if i > line: break
        m = re.match(r'\s*(Theorem|Lemma|Corollary|Example|Definition|Fixpoint|Record|Remark)\s+([\w\']+)', l)
        if m: name = m.group(2)
    return name
def allnames(f):
    return re.findall(r'^\s*(?:Theorem|Corollary)\s+(C\d+_[\w\']+)', open(f).read(), re.M)
for spec in json.load(open(sys.argv[1])):
    p = f"{dst}/theories/{spec['file']}.v"
    t = open(p).read()
    assert t.count(spec['old']) == 1, (spec['definition'], t.count(spec['old']))
    bak = p + '.orig'; shutil.copy2(p, bak)
    open(p, 'w').write(t.replace(spec['old'], spec['new']))
    r = sh('make -k -j4 2>&1', cwd=dst)
    out = r.stdout + r.stderr
    fails = {}
    for m in re.finditer(r'File "\./theories/(\w+)\.v", line (\d+)[^\n]*\n(?:Error|[^F]*?Error)', out):
        fails.setdefault(m.group(1), lemma_at(f"{dst}/theories/{m.group(1)}.v", int(m.group(2))))
    notbuilt = []
    for f in os.listdir(dst + '/theories'):
        if f.startswith('Prop') and f.endswith('.v'):
            if not os.path.exists(dst + '/theories/' + f + 'o') or os.path.getmtime(dst + '/theories/' + f + 'o') < os.path.getmtime(p):
                pass
    survived = [e for e in spec.get('expect', []) if False]
    print(spec['definition'], '|', spec['edit'], '->', fails or 'SURVIVED')
    rec = {"definition": spec['file'] + '.' + spec['definition'], "edit": spec['edit'], "claim": spec['claim'],
           "failed": [f"{k}.{v}" for k, v in fails.items()], "theorems_broken": spec.get('expect', []) if fails else [],
           "tightened": spec.get('tightened', [])}
    if not fails: rec["survived"] = True
    if spec['file'] == fails and False: pass
    with open('/verif/seeded/LOG.jsonl', 'a') as fh: fh.write(json.dumps(rec) + '\n')
    shutil.move(bak, p); os.utime(p)   # the next build remakes what depends on it
