#!/usr/bin/env python3
"""Seeded-bug check. Usage: mutate.py SPEC.json
SPEC is a list of {"file", "definition", "old", "new", "edit", "claim", "tightened"?}. Each edit is
applied to a scratch copy of rocq/, which is rebuilt; the first lemma that fails in each file is
reported and a line is added to seeded/LOG.jsonl."""
import json, sys, os, re, shutil, subprocess
root = os.path.dirname(os.path.dirname(os.path.abspath(__file__)))
scratch = '/tmp/mutscratch'
def sh(c, **k): return subprocess.run(c, shell=True, capture_output=True, text=True, **k)
def prep():
    if not os.path.exists(scratch): os.makedirs(scratch)
    sh(f'rsync -a --delete --exclude=.git {root}/rocq/ {scratch}/rocq/') if shutil.which('rsync') else (shutil.rmtree(scratch+'/rocq', True), sh(f'cp -a {root}/rocq {scratch}/rocq'))
    sh('coq_makefile -f _CoqProject -o Makefile', cwd=scratch+'/rocq')
    r = sh('make -j4', cwd=scratch+'/rocq', timeout=3000)
    assert r.returncode == 0, r.stderr[-2000:]
def failing(out):
    res = []
    for m in re.finditer(r'File "\./(theories/\w+\.v)", line (\d+)', out):
        ls = open(f'{scratch}/rocq/{m.group(1)}').read().split('\n')[:int(m.group(2))]
        name = None
        for l in ls:
            k = re.match(r'\s*(?:Theorem|Lemma|Example|Definition|Fixpoint|Corollary)\s+(\w+)', l)
            if k: name = k.group(1)
        if (m.group(1), name) not in res: res.append((m.group(1), name))
    for m in re.finditer(r'(theories/\w+)\.vo\] Error (\d+)', out):
        if all(a != m.group(1) + '.v' for a, _ in res):
            res.append((m.group(1) + '.v', 'no proof found within the limits of time and memory'))
    return res
prep()
for s in json.load(open(sys.argv[1])):
    f = f'{scratch}/rocq/theories/{s["file"]}'
    src = open(f).read()
    if src.count(s['old']) < 1:
        print('NOT FOUND', s['definition']); continue
    keep = src
    if 'within' not in s and src.count(s['old']) > 1:
        k = re.search(r'(Definition|Fixpoint)\s+' + s['definition'] + r'\b', src)
        s['within'] = k.group(0)
    if 'within' in s:
        i = src.index(s['within']); 
        mut = src[:i] + src[i:].replace(s['old'], s['new'], 1)
    else:
        assert src.count(s['old']) == 1, (s['definition'], src.count(s['old']))
        mut = src.replace(s['old'], s['new'], 1)
    open(f, 'w').write(mut)
    r = sh('ulimit -v 6000000; make -k -j4 COQC="timeout 400 coqc"', cwd=scratch+'/rocq', timeout=3000)
    fl = failing(r.stdout + r.stderr)
    print(s['definition'], '|', s['edit'], '->', fl if fl else 'NOTHING FAILED')
    open(f, 'w').write(keep)
    sh('make -k -j4 COQC="timeout 400 coqc"', cwd=scratch+'/rocq', timeout=3000)
    with open(root+'/seeded/LOG.jsonl', 'a') as g:
        g.write(json.dumps({"definition": f'{s["file"]}:{s["definition"]}', "edit": s['edit'], "claim": s['claim'],
                            "failed": [f'{a.split("/")[-1]}:{b}' for a, b in fl], "tightened": s.get('tightened', [])})+'\n')
