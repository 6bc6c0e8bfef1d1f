#!/usr/bin/env python3
"""Try wrong models against the theorems.

usage: mutate.py MUTANTS.json OUT.jsonl [SCRATCH_DIR]

Every mutant is {"id", "file", "old", "new", "claim"}: the text `old`, which
must occur exactly once in theories/FILE, is replaced by `new` in a scratch copy
of the development.  The copy is then built; the proof of every lemma that no
longer goes through is replaced by an admission *in the scratch copy*, until the
copy builds.  A property theorem counts as failed when its Print Assumptions
then lists one of these admissions.
"""
import json, os, re, shutil, subprocess, sys, time

ROOT = os.path.join(os.path.dirname(os.path.abspath(__file__)), '..', 'rocq')
START = re.compile(r'^[ \t]*(?:#\[[a-z]+\] *)?(?:Local |Global )?(Lemma|Theorem|Example|Corollary|Fact|Remark|Instance)\s+(\w+)', re.M)
END = re.compile(r'(?:Qed|Defined)\.')

def sh(cmd, cwd, timeout=3600):
    return subprocess.run(cmd, cwd=cwd, shell=True, stdout=subprocess.PIPE, stderr=subprocess.STDOUT, timeout=timeout, text=True).stdout

def files(d):
    return [l.strip() for l in open(os.path.join(d, '_CoqProject')) if l.startswith('theories/')]

def uses(base):
    """section variables every lemma uses, from the intact development"""
    cache = base + '/uses.json'
    if os.path.exists(cache):
        return json.load(open(cache))
    m = {}
    for f in files(base):
        p = os.path.join(base, f)
        s = open(p).read()
        open(p, 'w').write('Set Suggest Proof Using.\n' + s)
        out = sh('timeout 600 coqc -Q theories Verif ' + f, base)
        open(p, 'w').write(s)
        for g in re.finditer(r'The proof of (\w+)\s+should start with one of the following commands:\s+Proof using(?: Type\*?)?([^.]*)\.\s*(?:Proof using[^.]*\.)?', out):
            pass
        for g in re.finditer(r'The proof of (\w+)\s*\n?should start with one of the following commands:\s*\n((?:Proof using[^.]*\.\s*)+)', out):
            m[os.path.basename(f) + ':' + g.group(1)] = re.findall(r'Proof using[^.]*\.', g.group(2))[0]
    json.dump(m, open(cache, 'w'))
    return m

def admit(path, line, col, use):
    s = open(path).read()
    lines = s.split('\n')
    pos = sum(len(l) + 1 for l in lines[:line - 1]) + col
    best = None
    for g in START.finditer(s):
        if g.start() <= pos:
            best = g
        else:
            break
    if best is None:
        return None
    e = END.search(s, best.end())
    p = re.compile(r'\bProof\b[^.]*\.').search(s, best.end())
    if not e or not p or p.start() > e.start() or e.end() < pos:
        return None
    if pos < p.start() - 1:
        return ('statement', best.group(2))
    u = use.get(os.path.basename(path) + ':' + best.group(2), 'Proof.')
    s = s[:p.start()] + u + ' Admitted.' + s[e.end():]
    open(path, 'w').write(s)
    return (best.group(1), best.group(2))

def run(mut, base, work, use, limit=2400):
    # only theories are copied back, so that unaffected .vo stay valid
    shutil.rmtree(work, ignore_errors=True)
    shutil.copytree(base, work, copy_function=shutil.copy2)
    p = os.path.join(work, 'theories', mut['file'])
    s = open(p).read()
    n = s.count(mut['old'])
    if n != 1:
        return {'id': mut['id'], 'problem': 'old text occurs %d times' % n}
    open(p, 'w').write(s.replace(mut['old'], mut['new']))
    t0 = time.time()
    broken = []
    while True:
        out = sh('make -k -j%s 2>&1' % os.environ.get('JOBS', '3'), work)
        errs = re.findall(r'File "\./(theories/\w+\.v)", line (\d+), characters (\d+)-\d+:\s*\n\s*Error', out)
        if not errs:
            if 'Error' in out and 'recipe' in out or '***' in out:
                return {'id': mut['id'], 'problem': out[-600:], 'broken': broken}
            break
        for f, l, c in dict.fromkeys(errs):
            a = admit(os.path.join(work, f), int(l), int(c), use)
            if a is None or a[0] == 'statement':
                return {'id': mut['id'], 'problem': 'error outside a proof: %s:%s %s' % (f, l, a), 'broken': broken,
                        'detail': out[-800:]}
            broken.append([a[0], os.path.basename(f)[:-2] + '.' + a[1]])
        if time.time() - t0 > limit:
            return {'id': mut['id'], 'problem': 'time limit', 'broken': broken}
    failed = []
    for f in files(work):
        if not os.path.basename(f).startswith('Props'):
            continue
        names = re.findall(r'^Print Assumptions (\w+)\.', open(os.path.join(work, f)).read(), re.M)
        out = sh('coqc -Q theories Verif ' + f, work)
        parts = re.split(r'^(Closed under the global context|Axioms:)\n', out, flags=re.M)[1::2]
        assert len(parts) == len(names), (f, len(parts), len(names))
        failed += [n for n, k in zip(names, parts) if k == 'Axioms:']
    return {'id': mut['id'], 'failed': failed, 'examples': [b[1] for b in broken if b[0] == 'Example'],
            'broken': [b[1] for b in broken if b[0] != 'Example'], 'seconds': round(time.time() - t0)}

def main():
    muts = json.load(open(sys.argv[1]))
    out = sys.argv[2]
    scratch = sys.argv[3] if len(sys.argv) > 3 else '/tmp/mutants'
    base, work = scratch + '/base', scratch + '/work'
    done = {json.loads(l)['id'] for l in open(out)} if os.path.exists(out) else set()
    if not os.path.exists(base + '/ready'):
        shutil.rmtree(base, ignore_errors=True)
        os.makedirs(base + '/theories')
        for f in files(ROOT):
            s = open(os.path.join(ROOT, f)).read()
            open(os.path.join(base, f), 'w').write('Set Default Timeout 90.\n' + s)
        shutil.copy(ROOT + '/_CoqProject', base)
        sh('coq_makefile -f _CoqProject -o Makefile', base)
        print(sh('make -j3 2>&1 | grep -i error', base))
        uses(base)
        sh('make -j3', base)
        open(base + '/ready', 'w').write('')
    use = uses(base)
    for m in muts:
        if m['id'] in done:
            continue
        try:
            r = run(m, base, work, use)
        except Exception as e:
            r = {'id': m['id'], 'problem': repr(e)}
        r.update({k: m[k] for k in ('file', 'old', 'new', 'claim')})
        with open(out, 'a') as h:
            h.write(json.dumps(r) + '\n')
        print(m['id'], r.get('problem', ''), len(r.get('failed', [])), flush=True)

main()
