#!/usr/bin/env python3
"""Turns results of the mutation runner into lines of seeded/LOG.jsonl."""
import json, re, sys, os
out = open('/verif/seeded/LOG.jsonl', 'a')
def definition(f, old):
    s = open(f'/verif/rocq/theories/{f}.v').read()
    i = s.find(old)
    d = None
    for m in re.finditer(r'(?:Definition|Fixpoint|Inductive)\s+(\w+)', s[:max(i,0)+len(old)]):
        if m.start() <= i or d is None: d = m[1]
    return f'{f}.{d}'
for line in open(sys.argv[1]):
    m = json.loads(line); r = m['result']
    if 'error' in r: continue
    out.write(json.dumps({
        "definition": sorted({definition(f, o) for f, o, n in m['edits']}),
        "edit": m['edit'],
        "diff": [{"file": f + ".v", "old": o, "new": n} for f, o, n in m['edits']],
        "claim": m['claim'],
        "first_failing_lemmas": [f'{a}.{b}' for a, b in r['fails']],
        "theorems_failed": r['theorems'],
        "theorems_tightened": m.get('tightened', []),
        "note": m.get('note', '')}) + '\n')
