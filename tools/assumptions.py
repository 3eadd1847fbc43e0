#!/usr/bin/env python3
"""Group every theorem named in MANIFEST.json by what Print Assumptions lists for it.
Needs a finished build in rocq/.  Writes markdown on stdout."""
import json, os, re, subprocess, collections, tempfile
root = os.path.dirname(os.path.dirname(os.path.abspath(__file__)))
th = os.path.join(root, 'rocq', 'theories')
names = []
for c in json.load(open(os.path.join(root, 'MANIFEST.json')))['claims']:
    for t in c['theorems']:
        if t not in names: names.append(t)
where = {}
for f in sorted(os.listdir(th)):
    if f.endswith('.v'):
        for m in re.finditer(r'^\s*(?:Theorem|Lemma|Corollary)\s+([\w\']+)', open(os.path.join(th, f)).read(), re.M):
            where.setdefault(m.group(1), []).append(f[:-2])
byfile = collections.OrderedDict()
for t in names:
    byfile.setdefault(where[t][-1], []).append(t)
groups = collections.OrderedDict()
with tempfile.TemporaryDirectory() as d:
    for f, ts in byfile.items():
        p = os.path.join(d, 'Q.v')
        open(p, 'w').write('From Verif Require %s.\n' % f + ''.join(
            'Goal True. idtac "@@%s". Abort.\nPrint Assumptions %s.%s.\n' % (t, f, t) for t in ts))
        r = subprocess.run(['coqc', '-Q', th, 'Verif', p], capture_output=True, text=True)
        if r.returncode: print('FAILED', f, r.stderr); continue
        for blk in r.stdout.split('@@')[1:]:
            t = blk.split('\n')[0].strip()
            ax = tuple(sorted(set(m.group(1) for m in re.finditer(r'^([\w.]+)\s*(?::|$)', blk.split('\n', 1)[1], re.M)
                                  if m.group(1) not in ('Axioms', 'Closed'))))
            groups.setdefault(ax, collections.OrderedDict()).setdefault(f, []).append(t)
for ax, fs in sorted(groups.items(), key=lambda g: len(g[0])):
    print('### ' + (', '.join('`%s`' % a for a in ax) if ax else 'Closed under the global context (no axiom)') + '\n')
    for f, ts in fs.items():
        print('* `%s.v`: ' % f + ', '.join('`%s`' % t for t in ts))
    print()
