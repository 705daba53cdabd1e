#!/usr/bin/env python3
"""Seeded-bug runner.  usage: mutate.py mutations.json
Each entry: {"file","definition","old","new","edit","claim"}.  Works in a scratch copy of
/verif/rocq (outside /verif) and appends one line per attempt to seeded/LOG.jsonl."""
import json, os, re, subprocess, sys
root = os.path.dirname(os.path.dirname(os.path.abspath(__file__)))
BASE, WORK = '/tmp/mutbase', '/tmp/mut'
def sh(c, **k): return subprocess.run(c, shell=True, capture_output=True, text=True, **k)
def enclosing(path, line):
    name = '?'
    for i, l in enumerate(open(path), 1):
        if i > line: break
        m = re.match(r'\s*(?:Local |Global )?(Lemma|Theorem|Example|Definition|Fixpoint|Instance|Corollary) (\w+)', l)
        if m: name = m.group(2)
    return name
muts = json.load(open(sys.argv[1]))
if not os.path.exists(BASE + '/.ok'):
    sh(f'rm -rf {BASE}; cp -a {root}/rocq {BASE}; sed -i "/^Print Assumptions/d" {BASE}/theories/Prop*.v')
    r = sh(f'cd {BASE} && coq_makefile -f _CoqProject -o Makefile && make -j3')
    if r.returncode: print(r.stdout[-2000:], r.stderr[-2000:]); sys.exit(1)
    open(BASE + '/.ok', 'w').close()
for m in muts:
    sh(f'rm -rf {WORK}; cp -a {BASE} {WORK}')
    p = f'{WORK}/theories/{m["file"]}'
    s = open(p).read()
    if s.count(m['old']) < 1: print('NOT FOUND', m['definition'], m['old']); continue
    open(p, 'w').write(s.replace(m['old'], m['new'], 1))
    r = sh(f'cd {WORK} && make -k -j3 COQC="timeout 240 coqc" 2>&1')
    out = r.stdout
    failed = []
    for f, l in re.findall(r'File "\./theories/(\w+\.v)", line (\d+), characters [^\n]*\nError', out):
        failed.append(f[:-2] + '.' + enclosing(f'{WORK}/theories/{f}', int(l)))
    for f in re.findall(r'\*\*\* \[[^\]]*theories/(\w+)\.vo\] Error 124', out):
        failed.append(f + ' (proof no longer terminates)')
    built = set(os.path.basename(x)[:-3] for x in sh(f'ls {WORK}/theories/*.vo').stdout.split())
    # a stale .vo of a file that was not rebuilt does not count
    lost = [os.path.basename(x)[:-2] for x in sh(f'ls {WORK}/theories/Prop*.v').stdout.split()]
    bad = []
    for f in lost:
        q = sh(f'cd {WORK} && make -q theories/{f}.vo 2>&1')
        if q.returncode != 0: bad.append(f)
    rec = {'definition': m['definition'], 'file': m['file'], 'edit': m['edit'], 'claim': m['claim'],
           'failed': failed, 'property_files_not_built': bad, 'tightened': []}
    if not failed: rec['note'] = 'SURVIVED'
    print(json.dumps(rec), flush=True)
    open(root + '/seeded/LOG.jsonl', 'a').write(json.dumps(rec) + '\n')
