#!/usr/bin/env python3
# Regenerates DESIGN.md: hand-written text below + tables from MANIFEST.json and tools/assumptions.json
# (the latter is the parsed output of the Print Assumptions commands of all *_Props.v files).
import json, os, re, glob
here = os.path.dirname(os.path.abspath(__file__)); root = os.path.join(here, '..')
claims = {c['property']: c for c in json.load(open(os.path.join(root, 'MANIFEST.json')))['claims']}
props = [json.loads(l) for l in open(os.path.join(root, 'properties.jsonl'))]
ass = json.load(open(os.path.join(here, 'assumptions.json')))
where = {}
for f in sorted(glob.glob(os.path.join(root, 'rocq/theories/*_Props.v'))):
    for m in re.finditer(r'^\s*Theorem\s+(C\d+_\w+)', open(f).read(), re.M):
        where[m[1]] = os.path.basename(f)[:-8]

HEAD = open(os.path.join(here, 'design_text.md')).read()
AX = ['ClassicalDedekindReals.sig_not_dec', 'ClassicalDedekindReals.sig_forall_dec',
      'FunctionalExtensionality.functional_extensionality_dep', 'Classical_Prop.classic',
      'ClassicalEpsilon.constructive_indefinite_description']
LET = {'sig_not_dec': 'S', 'sig_forall_dec': 'F', 'functional_extensionality_dep': 'E', 'classic': 'C',
       'constructive_indefinite_description': 'D'}
rows = ['| id | property | status | unit | theorems [assumptions] |', '|---|---|---|---|---|']
for p in props:
    c = claims.get(p['id'])
    if not c: continue
    us = sorted({where[t] for t in c['theorems']})
    def a(t):
        x = ass.get(t)
        return '?' if x is None else (''.join(sorted(LET.get(k.split('.')[-1], k) for k in x)) or '–')
    rows.append('| %s | %s | %s | %s | %s |' % (p['id'], p['title'], c['status'], ', '.join(us),
                ', '.join('`%s` [%s]' % (t[len(p['id'])+1:], a(t)) for t in c['theorems'])))
n = len(props); npv = sum(c['status'] == 'proved' for c in claims.values())
out = HEAD.replace('@@TABLE@@', '\n'.join(rows)).replace('@@N@@', str(n)).replace('@@NP@@', str(npv)) \
          .replace('@@NQ@@', str(len(claims) - npv)) \
          .replace('@@NT@@', str(sum(len(c['theorems']) for c in claims.values()))) \
          .replace('@@PLAN2@@\n','').replace('@@NOTMOD2@@\n','').replace('@@FIND2@@\n','').replace('@@NCLOSED@@', str(sum(1 for c in claims.values() for t in c['theorems'] if ass.get(t) == [])))
open(os.path.join(root, 'DESIGN.md'), 'w').write(out)
miss = [t for c in claims.values() for t in c['theorems'] if t not in ass]
if miss: print('no assumptions recorded for', miss)
