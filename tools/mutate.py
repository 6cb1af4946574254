"""Mutation testing of the model in a scratch copy.

usage: mutate.py mutations.json [first-index]
Each mutation: {"file","definition","old","new","edit","claim"[,"count"]}.
The scratch copy is edited and rebuilt; every lemma whose proof breaks is
admitted there and the build repeated until it finishes; then the property
theorems whose `Print Assumptions` mentions an admitted lemma (or which broke
themselves) are the ones that failed.  One JSON line per mutation is appended
to seeded/LOG.jsonl.
"""
import json, os, re, shutil, subprocess, sys
ROOT = os.environ.get('MUTROOT', '/verif/rocq')
SCR = os.environ.get('MUTSCR', '/tmp/mut')
HEAD = re.compile(r'^\s*(?:Local |Global |#\[[^\]]*\]\s*)?(Lemma|Theorem|Example|Corollary|Fact|Remark|Instance|Definition|Program|Fixpoint)\s+([\w\']+)')

def make():
    r = subprocess.run('make -k -j4 COQC=/verif/tools/coqc_timeout.sh', shell=True, cwd=SCR, capture_output=True, text=True)
    return r.returncode, r.stdout + r.stderr

def admit(fn, line):
    p = os.path.join(SCR, fn)
    s = open(p).read().split('\n')
    i = line - 1
    while i >= 0 and not HEAD.match(s[i]):
        i -= 1
    name = HEAD.match(s[i]).group(2)
    text = '\n'.join(s[i:])
    m = re.search(r'\bProof\b(?: using[^.]*)?\.', text)
    e = re.search(r'\b(Qed|Defined)\.', text)
    if not m or not e or m.start() > e.start():
        raise SystemExit('cannot admit %s in %s:%d' % (name, fn, line))
    text = text[:m.start()] + 'Admitted.' + '\n' * text[m.start():e.end()].count('\n') + text[e.end():]
    open(p, 'w').write('\n'.join(s[:i]) + ('\n' if i else '') + text)
    return name

def run(mut):
    shutil.rmtree(SCR, ignore_errors=True)
    subprocess.run(['cp', '-a', ROOT, SCR], check=True)
    p = os.path.join(SCR, 'theories', mut['file'])
    s = open(p).read()
    n = s.count(mut['old'])
    if n != mut.get('count', 1):
        return {'error': 'old text found %d times' % n}
    open(p, 'w').write(s.replace(mut['old'], mut['new']))
    broken = []
    where = set()
    log = ''
    for _ in range(60):
        rc, out = make()
        log += out
        errs = re.findall(r'File "\./(theories/\w+\.v)", line (\d+), characters [\d-]+:\n(?!Warning)', out)
        if rc == 0:
            break
        if not errs:
            return {'error': out[-800:]}
        for fn, ln in dict(errs).items():
            try:
                broken.append(admit(fn, int(ln)))
                where.add(os.path.basename(fn)[:-2])
            except SystemExit as e:
                return {'error': str(e), 'broken': broken}
    failed = []
    if not broken:
        return {'failed': failed, 'broken': broken}
    # theorem -> assumptions, from query files over the modules that depend on a broken one
    needs = {}
    for f in os.listdir(SCR + '/theories'):
        if f.endswith('.v'):
            t = open(SCR + '/theories/' + f).read()
            needs[f[:-2]] = set(w for m in re.findall(r'From Verif Require (?:Import |Export )?([\w\s]+?)\.', t) for w in m.split())
    def closure(m, seen):
        if m not in seen:
            seen.add(m)
            for n in needs.get(m, ()):
                closure(n, seen)
        return seen
    cand = [m for m in sorted(needs) if m.startswith('Prop') and closure(m, set()) & where]
    items = [(m, t) for m in cand for t in re.findall(r'^Theorem (C\d\d_\w+)', open(SCR + '/theories/' + m + '.v').read(), re.M)]
    procs = []
    for k in range(4):
        mine = items[k::4]
        q = ''.join('From Verif Require %s.\n' % m for m in sorted(set(m for m, _ in mine)))
        for m, t in mine:
            q += 'Goal True. idtac "@@ %s". Abort.\nPrint Assumptions %s.%s.\n' % (t, m, t)
        open(SCR + '/Query%d.v' % k, 'w').write(q)
        procs.append(subprocess.Popen('coqc -Q theories Verif Query%d.v' % k, shell=True, cwd=SCR, stdout=subprocess.PIPE, stderr=subprocess.DEVNULL, text=True))
    out = ''.join(p.communicate()[0] for p in procs)
    parts = re.split(r'@@ (\w+)\n', out)
    order = [t for _, t in items]
    for t, a in sorted(zip(parts[1::2], parts[2::2]), key=lambda x: order.index(x[0])):
        names = set(x.split('.')[-1] for x in re.findall(r'^([\w.\']+)\s*:', a, re.M)) | set(x.split('.')[-1] for x in re.findall(r'^([\w.\']+)$', a, re.M))
        if t in broken or names & set(broken):
            failed.append(t)
    return {'failed': failed, 'broken': broken}

if __name__ == '__main__':
    muts = json.load(open(sys.argv[1]))
    for k, mut in enumerate(muts):
        if len(sys.argv) > 2 and k < int(sys.argv[2]):
            continue
        r = run(mut)
        rec = {'definition': mut['definition'], 'file': mut['file'], 'edit': mut['edit'], 'claim': mut['claim'],
               'theorems_failed': r.get('failed', []), 'lemmas_broken': r.get('broken', []), 'theorems_tightened': []}
        if 'error' in r:
            rec['error'] = r['error']
        print(json.dumps(rec), flush=True)
        if 'error' not in r:
            open('/verif/seeded/LOG.jsonl', 'a').write(json.dumps(rec) + '\n')
