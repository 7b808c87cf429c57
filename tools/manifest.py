#!/usr/bin/env python3
# Regenerates MANIFEST.json from the theorem names in rocq/theories/*_Props.v and tools/notes.py.
import re, json, glob, os, sys
here = os.path.dirname(os.path.abspath(__file__)); root = os.path.join(here, '..'); sys.path.insert(0, here)
from notes import NOTES, NA
th = {}
listed = open(os.path.join(root, 'rocq/_CoqProject')).read()
for f in sorted(glob.glob(os.path.join(root, 'rocq/theories/*_Props.v'))):
    if os.path.basename(f) not in listed: print('not in _CoqProject:', f); continue
    for m in re.finditer(r'^\s*Theorem\s+(C\d+)_(\w+)', open(f).read(), re.M):
        th.setdefault(m[1], []).append(m[1] + '_' + m[2])
ids = [json.loads(l)['id'] for l in open(os.path.join(root, 'properties.jsonl'))]
for i in th: assert i in ids, i
claims = []
for i in ids:
    if i in NA: claims.append(dict(property=i, status='not_applicable', theorems=[], note=NA[i])); continue
    if i not in th: print('no theorem yet:', i); continue
    partial = any(t.endswith('_partial') or t.endswith('_refuted') for t in th[i])
    note = NOTES.get(i, '')
    if partial and not note: print('partial without note', i)
    claims.append(dict(property=i, status='partial' if partial else 'proved', theorems=th[i], note=note))
json.dump({'claims': claims}, open(os.path.join(root, 'MANIFEST.json'), 'w'), indent=1, ensure_ascii=False)
print(len(claims), 'claims', sum(c['status']=='proved' for c in claims), 'proved')
