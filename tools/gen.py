#!/usr/bin/env python3
# Regenerates /verif/properties.jsonl from props_*.py (ids must be unique).
import json, glob, importlib, os, sys
here = os.path.dirname(os.path.abspath(__file__)); sys.path.insert(0, here)
for f in sorted(glob.glob(os.path.join(here, 'props_*.py'))):
    importlib.import_module(os.path.basename(f)[:-3])
from props_a import P
P.sort(key=lambda d: int(d['id'][1:]))
assert len({d['id'] for d in P}) == len(P)
with open(os.path.join(here, '..', 'properties.jsonl'), 'w') as o:
    for d in P: o.write(json.dumps(d, ensure_ascii=False) + '\n')
print(len(P), 'properties')
