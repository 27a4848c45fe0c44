#!/usr/bin/env python3
"""Seeded-bug harness.  usage: mutate.py FILE.v <<< '{"old":..., "new":..., "n": 0}'
or mutate.py jobs.json with a list of {"file","old","new","def","edit","claim"}.
Copies /verif/rocq (with .vo files) to a scratch directory, applies the edit, rebuilds what
depends on it, admits every proof that no longer checks and finally reports, from Print Assumptions in
the Props files, which property theorems still hold without any admitted lemma."""
import json, os, re, resource, shutil, subprocess, sys, tempfile
SRC = '/verif/rocq'

def deps(d, files):
    out = subprocess.run(['coqdep', '-Q', 'theories', 'Verif'] + files, cwd=d, capture_output=True, text=True).stdout
    r = {}
    for l in out.splitlines():
        m = re.match(r'(theories/\w+)\.vo .*?: (.*)', l)
        if m:
            r[m.group(1) + '.v'] = [x[:-1] for x in m.group(2).split() if re.match(r'theories/\w+\.vo$', x)]
    return r

def limit():
    resource.setrlimit(resource.RLIMIT_AS, (5 << 30, 5 << 30))

def run(d, f, to=200):
    try:
        p = subprocess.run(['coqc', '-time', '-w', 'none', '-Q', 'theories', 'Verif', f], cwd=d,
                           capture_output=True, timeout=to, preexec_fn=limit)
        out, err, rc = p.stdout, p.stderr, p.returncode
    except subprocess.TimeoutExpired as e:
        out, err, rc = e.stdout or b'', b'TIMEOUT', 124
    return rc, out.decode(errors='replace'), err.decode(errors='replace')

def mutate(job):
    d = tempfile.mkdtemp(prefix='mut', dir='/tmp')
    subprocess.run(['cp', '-a', SRC + '/.', d])
    path = d + '/theories/' + job['file']
    s = open(path).read()
    if s.count(job['old']) < 1:
        return {'error': 'pattern not found', **job}
    k = job.get('n', 0)
    parts = s.split(job['old'])
    s2 = job['old'].join(parts[:k + 1]) + job['new'] + job['old'].join(parts[k + 1:])
    open(path, 'w').write(s2)
    files = [l.strip() for l in open(d + '/_CoqProject') if l.strip().endswith('.v')]
    dp = deps(d, files)
    dirty = {'theories/' + job['file']}
    failed, broken, ok = [], [], []
    for f in files:
        if not (f in dirty or any(x in dirty for x in dp.get(f, []))):
            continue
        dirty.add(f)
        for it in range(200):
            rc, out, err = run(d, f)
            if rc == 0:
                break
            src = open(d + '/' + f, 'rb').read()
            m = re.search(r'line (\d+), characters (\d+)', err)
            if m:
                ln, ch = int(m.group(1)), int(m.group(2))
                pos = sum(len(x) + 1 for x in src.split(b'\n')[:ln - 1]) + ch
            else:
                c = re.findall(r'Chars (\d+) - (\d+)', out)
                pos = int(c[-1][1]) + 1 if c else 0
            a = src.rfind(b'Proof.', 0, pos + 1)
            last = max(src.rfind(b'Qed.', 0, pos), src.rfind(b'Admitted.', 0, pos))
            if a < 0 or a < last:
                shutil.rmtree(d)
                return {**job, 'statement_error': f + ': ' + err[:300], 'failed_lemmas': failed}
            b = src.find(b'Qed.', pos - 1)
            nm = re.findall(rb'(?:Lemma|Theorem|Example|Fact|Corollary) (\w+)', src[:a])[-1].decode()
            failed.append(nm)
            open(d + '/' + f, 'wb').write(src[:a] + b'Proof. Admitted.' + src[b + 4:])
        if os.path.basename(f).startswith('Props'):
            names = re.findall(r'Print Assumptions (\w+)\.', open(d + '/' + f).read())
            txt = '\n'.join(l for l in out.splitlines() if not l.startswith('Chars '))
            blocks = re.split(r'(?=^Closed under the global context|^Axioms:)', txt, flags=re.M)
            blocks = [x for x in blocks if x.startswith(('Closed', 'Axioms'))]
            for n, x in zip(names, blocks):
                (ok if x.startswith('Closed') or not any(re.search(r'\b%s\b' % y, x) for y in failed) else broken).append(n)
    shutil.rmtree(d)
    return {**job, 'failed_lemmas': failed, 'theorems_failed': broken, 'theorems_ok': len(ok)}

if __name__ == '__main__':
    jobs = json.load(open(sys.argv[1]))
    from concurrent.futures import ThreadPoolExecutor
    with ThreadPoolExecutor(int(sys.argv[2]) if len(sys.argv) > 2 else 4) as ex:
        for r in ex.map(mutate, jobs):
            print(json.dumps(r), flush=True)
