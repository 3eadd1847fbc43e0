#!/usr/bin/env python3
"""Apply one textual edit to a model file in a scratch copy, rebuild, and report
the statements whose proofs break.
usage: mutate.py File.v OLD NEW "claim broken" "note on the edit" [--log] [--tightened=THEOREMS]
Only files that depend on File.v are rebuilt."""
import json, os, re, shutil, subprocess, sys
root = os.path.dirname(os.path.dirname(os.path.abspath(__file__)))
src = os.path.join(root, 'rocq'); dst = '/tmp/mut'
f, old, new, claim, note = sys.argv[1:6]
log = '--log' in sys.argv
tight = [a.split('=', 1)[1] for a in sys.argv if a.startswith('--tightened=')]
subprocess.run(['rsync', '-a', '--delete', src + '/', dst + '/'], check=False) if shutil.which('rsync') else (
    shutil.rmtree(dst, ignore_errors=True), shutil.copytree(src, dst))
p = os.path.join(dst, 'theories', f)
s = open(p).read()
n = s.count(old)
if n != 1:
    print('edit matches', n, 'times'); sys.exit(2)
i = s.index(old)
defs = re.findall(r'(?:Definition|Fixpoint|Record|Inductive)\s+(\w+)', s[:i + len(old)])
name = defs[-1] if defs else '?'
open(p, 'w').write(s.replace(old, new))
subprocess.run(['coq_makefile', '-f', '_CoqProject', '-o', 'Makefile'], cwd=dst, capture_output=True)
r = subprocess.run('timeout 1500 make -k -j4', shell=True, cwd=dst, capture_output=True, text=True)
out = r.stdout + r.stderr
failed = []
for m in re.finditer(r'File "\./theories/(\w+\.v)", line (\d+)[^\n]*\n(?=Error)', out):
    g = os.path.join(dst, 'theories', m.group(1)); ln = int(m.group(2))
    head = '\n'.join(open(g).read().split('\n')[:ln])
    names = re.findall(r'(?:Theorem|Lemma|Corollary|Example|Definition|Fixpoint)\s+(\w+)', head)
    failed.append(m.group(1) + ':' + (names[-1] if names else '?'))
blocked = sorted(set(re.findall(r"theories/(\w+)\.vo\]? .*?not remade", out)))
failed = list(dict.fromkeys(failed))
print('edited', name, '| failed:', failed or 'NOTHING', '| exit', r.returncode)
if log:
    with open(os.path.join(root, 'seeded', 'LOG.jsonl'), 'a') as h:
        h.write(json.dumps({"definition": f + ':' + name, "edit": old.strip() + '  ->  ' + new.strip(),
            "claim_broken": claim, "theorems_failed": failed,
            "theorems_tightened": tight[0] if tight else "none", "note": note}) + '\n')
