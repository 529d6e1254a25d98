#!/usr/bin/env python3
"""Seeded-bug testing.  usage: mutate.py mutations.json
Each mutation: {"file": "IrrepsModel.v", "definition": "...", "old": "...", "new": "...", "edit": "english", "claim": "Cnn ..."}.
Copies /verif/rocq to a scratch directory, applies the edit, rebuilds with make -k and appends the outcome to seeded/LOG.jsonl."""
import json, os, re, shutil, subprocess, sys, bisect
ROOT = '/verif'
SCR = '/tmp/mut/work'
def name_at(path, line):
    best = '?'
    for n, l in enumerate(open(path), 1):
        m = re.match(r'\s*(?:Theorem|Lemma|Corollary|Example|Fact|Definition|Fixpoint|Remark)\s+([A-Za-z0-9_\']+)', l)
        if m: best = m.group(1)
        if n >= line: break
    return best
muts = json.load(open(sys.argv[1]))
for mu in muts:
    if os.path.exists(SCR): shutil.rmtree(SCR)
    shutil.copytree(ROOT + '/rocq', SCR, copy_function=shutil.copy2)
    f = f"{SCR}/theories/{mu['file']}"
    s = open(f).read()
    n = s.count(mu['old'])
    if n != 1:
        print('BAD', n, mu['definition'], mu['old'][:50]); continue
    open(f, 'w').write(s.replace(mu['old'], mu['new']))
    r = subprocess.run('coq_makefile -f _CoqProject -o Makefile && timeout 1500 nice make -k -j3 2>&1', shell=True, cwd=SCR, capture_output=True, text=True)
    fails = []
    for m in re.finditer(r'File "\./(theories/\w+\.v)", line (\d+), characters [^\n]*\n(Error)?', r.stdout):
        tail = r.stdout[m.end():m.end()+4000]
        if m.group(3) or re.match(r'(?:[^\n]*\n){0,3}Error', r.stdout[m.start():]):
            fails.append(f"{os.path.basename(m.group(1))}:{name_at(SCR + '/' + m.group(1), int(m.group(2)))}")
    fails = sorted(set(fails))
    missing = [v for v in os.listdir(SCR + '/theories') if v.endswith('.v') and (not os.path.exists(f'{SCR}/theories/{v}o') or os.path.getmtime(f'{SCR}/theories/{v}o') < os.path.getmtime(f))]
    blocked = []
    for v in sorted(missing):
        src = open(f'{SCR}/theories/{v}').read()
        blocked += re.findall(r'^\s*(?:Theorem|Corollary)\s+(C\d\d_[A-Za-z0-9_\']+)', src, re.M) if v not in [x.split(':')[0] for x in fails] else []
    rec = {'definition': mu['definition'], 'edit': mu['edit'], 'breaks': mu['claim'], 'theorems_failed': fails,
           'killed': bool(fails), 'theorems_tightened': mu.get('tightened', [])}
    with open(ROOT + '/seeded/LOG.jsonl', 'a') as g: g.write(json.dumps(rec) + '\n')
    print('KILLED' if fails else 'SURVIVED', mu['definition'], '|', mu['edit'], '|', fails[:4], flush=True)
