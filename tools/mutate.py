#!/usr/bin/env python3
"""Seeded-bug runner.  Usage: mutate.py SCRATCH MUTANTS.json [ids...]
Copies /verif/rocq (with compiled files) to SCRATCH, applies one edit to the
model, rebuilds; the proof of every lemma that no longer goes through is
replaced by Admitted (in SCRATCH only) and the build goes on, so that at the end
Print Assumptions under each property theorem tells which theorems rest on a
broken lemma.  Prints one JSON line per mutant."""
import sys, os, re, json, subprocess, shutil, time
SRC = os.environ.get('SRC', '/verif/rocq')
scratch, mfile = sys.argv[1], sys.argv[2]
want = set(sys.argv[3:])
ONLY = [x for x in os.environ.get('ONLY', '').split(',') if x]  # ask only these modules of Props
JOBS = os.environ.get('JOBS', '3'); LIMIT = os.environ.get('LIMIT', '240')
STMT = re.compile(r'^\s*(?:Local\s+|Global\s+)?(Lemma|Theorem|Example|Corollary|Fact|Remark|Instance)\s+([A-Za-z0-9_\']+)', re.M)

def reset():
    shutil.rmtree(scratch, ignore_errors=True)
    subprocess.run(['cp', '-a', SRC, scratch], check=True)

def admit(path, line):
    s = open(path).read()
    pos = 0
    for _ in range(line): 
        k = s.find('\n', pos)
        if k < 0: pos = len(s); break
        pos = k + 1
    ms = [m for m in STMT.finditer(s) if m.start() < pos]
    if not ms: return None
    m = ms[-1]
    q = re.compile(r'\b(Qed|Defined)\.').search(s, m.end())
    p = s.find('Proof', m.end())
    if q is None or p < 0 or p > q.start(): return None
    nl = s[p:q.end()].count('\n')
    s = s[:p] + 'Admitted.' + '\n' * nl + s[q.end():]
    open(path, 'w').write(s)
    return m.group(2)

def last_line_before_timeout(f):
    r = subprocess.run('cd %s && timeout %s coqc -time -R theories Verif %s 2>/dev/null | grep "^Chars" | tail -1' % (scratch, LIMIT, f),
                       shell=True, capture_output=True, text=True)
    m = re.match(r'Chars (\d+) - (\d+)', r.stdout)
    off = int(m.group(2)) if m else 0
    s = open(os.path.join(scratch, f), 'rb').read()
    j = off
    while j < len(s) and s[j:j+1] in b' \n': j += 1
    return s[:j].count(b'\n') + 1

def run(mu):
    reset()
    path = os.path.join(scratch, 'theories', mu['file'])
    s = open(path).read()
    if s.count(mu['old']) != mu.get('count', 1):
        return dict(id=mu['id'], error='pattern found %d times' % s.count(mu['old']))
    open(path, 'w').write(s.replace(mu['old'], mu['new']))
    broken = []; out = ''; t0 = time.time(); outputs = {}
    for it in range(60):
        r = subprocess.run("make -k -j%s COQC='timeout %s coqc' 2>&1" % (JOBS, LIMIT), shell=True, cwd=scratch, capture_output=True, text=True)
        out = r.stdout
        if r.returncode == 0: break
        errs = re.findall(r'File "\./(theories/[^"]+)", line (\d+), characters [^\n]*\n(?:Error|In nested|The )', out)
        seen = set(); did = False
        for f, l in errs:
            if f in seen: continue
            seen.add(f)
            if f == 'theories/' + mu['file']:
                return dict(id=mu['id'], error='mutant does not compile', out=out[-600:])
            name = admit(os.path.join(scratch, f), int(l))
            if name is None: return dict(id=mu['id'], error='cannot admit %s:%s' % (f, l), broken=broken, out=out[-600:])
            broken.append(f.split('/')[-1][:-2] + '.' + name); did = True
        for f in re.findall(r'\*\*\* \[Makefile:\d+: (theories/\S+)\.vo\] (?:Error 124|Terminated)', out):
            f += '.v'
            if f in seen: continue
            seen.add(f)
            name = admit(os.path.join(scratch, f), last_line_before_timeout(f))
            if name is None: return dict(id=mu['id'], error='timeout in %s' % f, broken=broken)
            broken.append(f.split('/')[-1][:-2] + '.' + name + ' (time)'); did = True
        if not did: return dict(id=mu['id'], error='stuck', broken=broken, out=out[-800:])
    # which property theorems rest on admitted lemmas
    failed = set()
    names = set(b.split('.')[1].split(' ')[0] for b in broken)
    for b in broken:
        n = b.split('.')[1].split(' ')[0]
        if re.match(r'C\d\d_', n): failed.add(n)
    if names:
        pf = os.path.join(scratch, 'assume.v')
        th = []
        mods = []
        for f in sorted(os.listdir(os.path.join(scratch, 'theories/Props'))):
            if not f.endswith('.v') or (ONLY and f[:-2] not in ONLY): continue
            mods.append(f[:-2])
            for m in re.finditer(r'^\s*Theorem (C\d\d_\w+)', open(os.path.join(scratch, 'theories/Props', f)).read(), re.M):
                th.append((f[:-2], m.group(1)))
        with open(pf, 'w') as g:
            g.write('From Verif.Props Require %s.\n' % ' '.join(mods))
            for a, t in th:
                g.write('Goal True. idtac "@@ %s". Abort.\nPrint Assumptions Verif.Props.%s.%s.\n' % (t, a, t))
        r = subprocess.run(['coqc', '-R', 'theories', 'Verif', 'assume.v'], cwd=scratch, capture_output=True, text=True)
        cur = None
        for line in r.stdout.splitlines():
            if line.startswith('@@ '): cur = line[3:]
            elif cur and not line.startswith('Closed under') and not line.startswith('Axioms'):
                w = line.split(' ')[0].split('.')[-1].rstrip(':')
                if w in names: failed.add(cur)
        if r.returncode != 0: failed.add('?? ' + r.stderr[-300:])
    return dict(id=mu['id'], broken=broken, theorems=sorted(failed), secs=int(time.time() - t0))

for mu in json.load(open(mfile)):
    if want and mu['id'] not in want: continue
    res = run(mu)
    print(json.dumps(res), flush=True)
