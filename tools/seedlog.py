#!/usr/bin/env python3
"""Append results of seeded-edit runs (JSON lines with def,file,edit,claim,failed) to seeded/LOG.jsonl.
A Coq build stops a file at its first failing proof; the property theorems whose proofs use that lemma
(directly or through other lemmas, found by name in the sources) are listed after it.
With --redo the dependent theorems of the entries already in the log are recomputed."""
import json, sys, os, re
root = os.path.dirname(os.path.dirname(os.path.abspath(__file__)))
th = os.path.join(root, 'rocq', 'theories')
order = [l.strip() for l in open(os.path.join(root, 'rocq', '_CoqProject')) if l.strip().endswith('.v')]
decl = re.compile(r'^\s*(?:Local |Global |Program )*(Theorem|Lemma|Definition|Fixpoint|Example|Corollary|Fact|Record|Inductive|Let|Ltac)\s+(\w+)', re.M)
uses, last = {}, {}     # (file,name) -> set of (file,name)
props = []
for f in order:
    m = os.path.basename(f)[:-2]
    s = re.sub(r'\(\*.*?\*\)', ' ', open(os.path.join(root, 'rocq', f)).read(), flags=re.S)
    ds = list(decl.finditer(s))
    for i, d in enumerate(ds):
        body = s[d.end(): ds[i + 1].start() if i + 1 < len(ds) else len(s)]
        k = (m, d.group(2))
        uses[k] = {last[w] for w in set(re.findall(r"[A-Za-z_][\w']*", body)) if w in last and last[w] != k}
        last[d.group(2)] = k
        if m.startswith('Props') and d.group(1) == 'Theorem' and re.match(r'C\d\d', d.group(2)): props.append(k)
rev = {}
for k, us in uses.items():
    for u in us: rev.setdefault(u, set()).add(k)
def dependents(name):
    m, n = name.split('.', 1)
    seen, todo = set(), [(m, n)]
    while todo:
        k = todo.pop()
        if k in seen: continue
        seen.add(k); todo += rev.get(k, ())
    return [p[1] for p in props if p in seen and not p[1].endswith('_refuted')]
def closure(failed):
    out = list(failed)
    for f in failed:
        for t in dependents(f):
            if t not in out: out.append(t)
    return out
log = os.path.join(root, 'seeded', 'LOG.jsonl')
def entry(d):
    df = d['def'] if ':' in d['def'] else d['file'] + ': ' + d['def']
    return {'definition': df, 'edit': d['edit'], 'claim': d['claim'], 'theorems_failed': closure(d['failed']),
            'theorems_tightened': d.get('tightened', [])}
if sys.argv[1] == '--redo':
    L = [json.loads(l) for l in open(log)]
    for e in L:
        e['definition'] = re.sub(r'^(\w+\.v: )\1', r'\1', e['definition'])
        e['theorems_failed'] = closure([t for t in e['theorems_failed'] if '.' in t])
    open(log, 'w').write(''.join(json.dumps(e) + '\n' for e in L))
else:
    with open(log, 'a') as o:
        for l in open(sys.argv[1]): o.write(json.dumps(entry(json.loads(l))) + '\n')
