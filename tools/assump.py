#!/usr/bin/env python3
# Prints the assumptions of every manifest theorem (one coqc run per *_Props file, in a scratch directory) into assumptions.json.
# usage: assump.py [File_Props ...]   (default: all files with theorems that have no entry yet)
import sys, re, json, os, subprocess, tempfile
here = os.path.dirname(os.path.abspath(__file__)); root = os.path.join(here, '..')
fn = os.path.join(here, 'assumptions.json'); rocq = os.path.join(root, 'rocq')
res = json.load(open(fn)) if os.path.exists(fn) else {}
files = re.findall(r'theories/(\w+_Props)\.v', open(os.path.join(rocq, '_CoqProject')).read())
tmp = tempfile.mkdtemp()
for f in files:
    names = re.findall(r'^\s*Theorem\s+(C\d+_\w+)', open(os.path.join(rocq, 'theories', f + '.v')).read(), re.M)
    if sys.argv[1:]:
        if f not in sys.argv[1:]: continue
    else: names = [n for n in names if n not in res]
    if not names: continue
    v = os.path.join(tmp, 'A.v')
    open(v, 'w').write('From Verif Require %s.\n' % f + ''.join('Print Assumptions Verif.%s.%s.\n' % (f, n) for n in names))
    out = subprocess.run(['coqc', '-w', 'none', '-Q', 'theories', 'Verif', v], cwd=rocq, capture_output=True, text=True)
    if out.returncode: print('error', f, out.stderr[-300:]); continue
    blocks = []
    for line in out.stdout.splitlines():
        if line.startswith('Closed under') or line.startswith('Axioms:'): blocks.append([])
        else:
            m = re.match(r'^([A-Za-z_]\w*(?:\.\w+)*)\s*(?::|$)', line)
            if m and blocks: blocks[-1].append(m[1])
    if len(names) != len(blocks): print('mismatch', f, len(names), len(blocks)); continue
    for n, b in zip(names, blocks): res[n] = sorted(set(b))
    json.dump(res, open(fn, 'w'), indent=0, sort_keys=True)
    print(f, len(names), flush=True)
json.dump(res, open(fn, 'w'), indent=0, sort_keys=True)
print(len(res), 'theorems;', sorted({a for b in res.values() for a in b}))
