#!/usr/bin/env python3
"""Seeded-bug runner.  Input: JSON list of {file, old, new, definition, edit, claim}.
Each edit is applied to a scratch copy outside /verif, the copy is rebuilt with make -k, and the
statements whose proofs broke are reported; one line per attempt goes to /verif/seeded/LOG.jsonl."""
import json, sys, subprocess, shutil, os, re
muts = json.load(open(sys.argv[1])); log = len(sys.argv) < 3
S = '/tmp/scratch'
if os.path.exists(S): shutil.rmtree(S)
shutil.copytree('/verif/rocq', S)
subprocess.run('coq_makefile -f _CoqProject -o Makefile >/dev/null; make -j4 >/dev/null 2>&1', shell=True, cwd=S)
def enclosing(path, line):
    name = None
    for i, l in enumerate(open(path), 1):
        m = re.match(r'\s*(?:Local |Global )?(Theorem|Lemma|Example|Corollary|Definition|Fixpoint|Fact|Remark)\s+([\w\']+)', l)
        if m and i <= line: name = m.group(2)
        if i >= line: break
    return name
def deps():
    out = subprocess.run('coqdep -Q theories Verif theories/*.v', shell=True, cwd=S, capture_output=True, text=True).stdout
    d = {}
    for l in out.splitlines():
        a, _, b = l.partition(':')
        t = [x for x in a.split() if x.endswith('.vo')]
        if t: d[t[0]] = [x for x in b.split() if x.endswith('.vo')]
    return d
D = deps()
def downstream(vo):
    r, ch = {vo}, True
    while ch:
        ch = False
        for k, v in D.items():
            if k not in r and any(x in r for x in v): r.add(k); ch = True
    return r
for m in muts:
    p = f"{S}/theories/{m['file']}"
    src = open(p).read()
    n = src.count(m['old'])
    if n != 1:
        print('BAD PATTERN', n, m['definition'], m['edit']); continue
    open(p, 'w').write(src.replace(m['old'], m['new']))
    r = subprocess.run('timeout 1500 make -k -j4 2>&1', shell=True, cwd=S, capture_output=True, text=True)
    failed = []
    for f, l in re.findall(r'File "\./(theories/\w+\.v)", line (\d+)[^\n]*\n(?!Warning)', r.stdout):
        e = enclosing(f'{S}/{f}', int(l))
        failed.append(f"{os.path.basename(f)[:-2]}.{e}")
    failed = [f for f in dict.fromkeys(failed)]
    errs = 'Error' in r.stdout
    print(m['definition'], '|', m['edit'], '=>', failed if errs else 'SURVIVED')
    if log:
        with open('/verif/seeded/LOG.jsonl', 'a') as fh:
            fh.write(json.dumps({"definition": m['definition'], "edit": m['edit'], "claim": m['claim'],
              "theorems_failed": failed if errs else [], "survived": not errs, "theorems_tightened": m.get('tightened', [])}) + '\n')
    open(p, 'w').write(src)
    subprocess.run('touch '+p, shell=True)
