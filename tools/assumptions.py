#!/usr/bin/env python3
"""Writes ASSUMPTIONS.md: what Print Assumptions lists for every claimed theorem (needs a built rocq/)."""
import re, subprocess, os, collections, json, glob
os.chdir('/verif/rocq')
names = [t for c in json.load(open('/verif/MANIFEST.json'))['claims'] for t in c['theorems']]
mods = [os.path.basename(f)[:-2] for f in sorted(glob.glob('theories/Props/*.v'))]
head = 'From Verif Require Import %s.\n' % ' '.join('Props.' + m for m in mods)
K = 4
procs = []
for k in range(K):
    open(f'/tmp/Assumptions{k}.v', 'w').write(head + ''.join(f'Print Assumptions {n}.\n' for n in names[k::K]))
    procs.append(subprocess.Popen(['coqc', '-q', '-Q', 'theories', 'Verif', f'/tmp/Assumptions{k}.v'], stdout=subprocess.PIPE, stderr=subprocess.DEVNULL, text=True))
outs = [p.communicate()[0] for p in procs]
blocks = [None] * len(names)
for k in range(K):
    bs = [b for b in re.split(r'^(?=Axioms:|Closed under the global context)', outs[k], flags=re.M) if b.startswith(('Axioms:', 'Closed'))]
    assert len(bs) == len(names[k::K]), (k, len(bs), len(names[k::K]))
    blocks[k::K] = bs
groups = collections.OrderedDict()
for n, b in zip(names, blocks):
    ax = tuple(sorted(re.findall(r'^([\w.]+)\s*$|^([\w.]+) :', b, flags=re.M) and {x or y for x, y in re.findall(r'^([A-Za-z_][\w.]*)\s*$|^([A-Za-z_][\w.]*) :', b, flags=re.M)} - {'Axioms:'})) if b.startswith('Axioms') else ()
    groups.setdefault(ax, []).append(n)
with open('/verif/ASSUMPTIONS.md', 'w') as f:
    f.write('# What `Print Assumptions` lists for each theorem\n\nGenerated by tools/assumptions.py from the output of Print Assumptions for every theorem named in MANIFEST.json.\n')
    for ax, ns in sorted(groups.items(), key=lambda g: len(g[0])):
        f.write('\n## ' + (', '.join(f'`{a}`' for a in ax) if ax else 'Closed under the global context (no axioms)') + '\n\n')
        f.write(', '.join(ns) + '\n')
print({k: len(v) for k, v in groups.items()})
