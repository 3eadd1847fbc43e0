#!/usr/bin/env python3
"""Edit every definition of the model files at random places in scratch copies, rebuild
the files that depend on it, and report which statements break and which edits survive.
Definitions already recorded in OUT.jsonl or in a file named in $DONE are skipped.
usage: automutate.py OUT.jsonl WORKERS PER_DEF SEED [File.v ...]"""
import concurrent.futures as cf, glob, json, os, queue, random, re, shutil, subprocess, sys
root = os.path.dirname(os.path.dirname(os.path.abspath(__file__)))
out, workers, per, seed = sys.argv[1], int(sys.argv[2]), int(sys.argv[3]), int(sys.argv[4])
files = sys.argv[5:]
base = '/tmp/am/base'
if not os.path.isdir(base):
    shutil.copytree(os.path.join(root, 'rocq'), base)
W = queue.Queue()
for w in range(workers):
    d = '/tmp/am/w%d' % w
    shutil.rmtree(d, ignore_errors=True); shutil.copytree(base, d); W.put(d)
OPS = [(r' \+ ', ' - '), (r' - ', ' + '), (r' \* ', ' + '), (r' / ', ' * '), (r'<\?', '<=?'), (r'<=\?', '<?'), (r'(?<!<)=\?', '<=?'),
       (r'\bRltb\b', 'Rleb'), (r'\bRleb\b', 'Rltb'), (r'&&', '||'), (r'\|\|', '&&'), (r'\bnegb\b', ''), (r'\btrue\b', 'false'), (r'\bfalse\b', 'true'),
       (r'\bRmax\b', 'Rmin'), (r'\bRmin\b', 'Rmax'), (r'\bfst\b', 'snd'), (r'\bsnd\b', 'fst'), (r'\bfirstn\b', 'skipn'), (r'\bsin\b', 'cos'), (r'\bcos\b', 'sin'),
       (r'\bd1\b', 'd2'), (r'\bd2\b', 'd1'), (r'exp \(- ', 'exp ('), (r'\brev\b', ''), (r'\bsqrt\b', ''), (r'\bln\b', 'exp'), (r'\bncdf\b', 'npdf'), (r'\bnpdf\b', 'ncdf'),
       (r'(?<![\w.])(\d+)(?![\w.])', lambda m: str(int(m.group(1)) + 1)), (r'\(- ', '('), (r'\bZ\.max\b', 'Z.min'), (r'\bs\b(?! *[:)])', 'k'), (r'\bPanic\b', 'NoFuel'),
       (r'/ (\d)', r'\1'), (r'\bNone\b', 'Panic')]
def strip_comments(s):
    o, d, i = [], 0, 0
    while i < len(s):
        if s[i:i+2] == '(*': d += 1; i += 2; o.append('  '); continue
        if s[i:i+2] == '*)' and d: d -= 1; i += 2; o.append('  '); continue
        o.append(s[i] if d == 0 or s[i] == '\n' else ' '); i += 1
    return ''.join(o)
req = {}
for p in glob.glob(base + '/theories/*.v'):
    t = open(p).read()
    req[os.path.basename(p)[:-2]] = set(w for l in re.findall(r'From Verif Require (?:Import|Export)([^.]*)\.', t) for w in l.split())
def dependents(f):
    """files that use f, nearest first"""
    todo, seen = [f[:-2]], []
    while todo:
        x = todo.pop(0)
        for m in sorted(req):
            if x in req[m] and m not in seen: seen.append(m); todo.append(m)
    return ['theories/%s.vo' % m for m in seen]
done_defs = set()
for p in [out] + os.environ.get('DONE', '').split():
    if os.path.exists(p):
        for l in open(p): j = json.loads(l); done_defs.add((j['file'], j['def']))
jobs = []
rng = random.Random(seed)
for f in files or [os.path.basename(p) for p in sorted(glob.glob(base + '/theories/*Model.v'))]:
    s = open(os.path.join(base, 'theories', f)).read(); c = strip_comments(s)
    for m in re.finditer(r'(?m)^\s*(?:Definition|Fixpoint)\s+(\w+)', c):
        e = re.search(r'\.\s*(?:\n|$)', c[m.end():])
        end = m.end() + e.start()
        b = c.find(':=', m.end(), end)
        if b < 0 or (f, m.group(1)) in done_defs: continue
        cand = []
        for pat, rep in OPS:
            for x in re.finditer(pat, c[b:end]):
                new = x.expand(rep) if isinstance(rep, str) else rep(x)
                cand.append((b + x.start(), b + x.end(), new))
        rng.shuffle(cand)
        jobs.append((f, m.group(1), s, cand))
rng.shuffle(jobs)
def restore(d):
    for p in os.listdir(base + '/theories'):
        a, b = base + '/theories/' + p, d + '/theories/' + p
        if p.endswith('.aux'): continue
        if not os.path.exists(b) or os.stat(a).st_mtime != os.stat(b).st_mtime: shutil.copy2(a, b)
def run(job):
    f, name, s, cand = job
    d = W.get(); done = 0; tried = 0
    try:
        for a, b, new in cand:
            if done >= per or tried >= per + 8: break
            tried += 1
            p = d + '/theories/' + f
            open(p, 'w').write(s[:a] + new + s[b:])
            try:
                r = subprocess.run('timeout 1200 make -j1 ' + ' '.join(dependents(f)), shell=True, cwd=d, capture_output=True, text=True)
                o = r.stdout + r.stderr
            finally:
                pass
            fail = None
            m = re.search(r'File "\./theories/(\w+\.v)", line (\d+)[^\n]*\n(?=Error)', o)
            if m:
                g = d + '/theories/' + m.group(1)
                head = '\n'.join(open(g).read().split('\n')[:int(m.group(2))])
                ns = re.findall(r'(?:Theorem|Lemma|Corollary|Example|Definition|Fixpoint)\s+(\w+)', head)
                fail = m.group(1) + ':' + (ns[-1] if ns else '?')
            restore(d)
            if fail and m.group(1) == f: continue
            l0 = s.rfind('\n', 0, a) + 1; l1 = s.find('\n', b)
            rec = {'file': f, 'def': name, 'old': s[a:b], 'line': s[l0:l1].strip(), 'newline': (s[l0:a] + new + s[b:l1]).strip(), 'fail': fail, 'rc': r.returncode}
            if fail is None and r.returncode != 0: rec['tail'] = o[-300:]
            with open(out, 'a') as h: h.write(json.dumps(rec) + '\n')
            done += 1
    finally:
        W.put(d)
with cf.ThreadPoolExecutor(workers) as ex:
    for x in ex.map(lambda j: (run(j) if True else None), jobs): pass
