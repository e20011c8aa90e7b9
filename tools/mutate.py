#!/usr/bin/env python3
"""Mutation testing of the theorems, in a scratch copy (never in /verif).

usage: mutate.py MUTATIONS.json [id ...]
For each mutation {id, file, old, new, claim}: copy rocq/, edit, rebuild.  A lemma
whose proof breaks is replaced by Admitted IN THE SCRATCH COPY ONLY and the build goes on, so that the
end result tells which property theorems of Properties.v rest on a broken lemma
(Print Assumptions) and which ones still prove."""
import sys, os, re, json, subprocess, shutil, concurrent.futures as cf
SRC = os.environ.get('SRC', '/verif/rocq')
SCR = os.environ.get('SCR', '/tmp/mut/w')
J = int(os.environ.get('J', '4'))
TMO = 1500

def order():
    return [l.strip() for l in open(SRC + '/_CoqProject') if l.strip().endswith('.v')]

def deps(root):
    out = subprocess.run(['coqdep', '-Q', 'theories', 'Verif'] + order(), cwd=root, capture_output=True, text=True).stdout
    d = {}
    for l in out.splitlines():
        if ':' not in l: continue
        tgt, src = l.split(':', 1)
        m = [t for t in tgt.split() if t.endswith('.vo')]
        if not m: continue
        d[m[0][:-1]] = [s[:-1] for s in src.split() if s.endswith('.vo') and s.startswith('theories/')]
    return d

def coqc(root, f):
    try:
        p = subprocess.run(['timeout', str(TMO), 'coqc', '-q', '-Q', 'theories', 'Verif', f], cwd=root, capture_output=True, text=True)
        return p.returncode, p.stdout, p.stderr
    except Exception as e:
        return 1, '', str(e)

HEAD = re.compile(r'^\s*(?:Local |Global )?(Lemma|Theorem|Corollary|Example|Fact|Remark|Definition|Fixpoint|Instance|Inductive|Record|Ltac)\s+([\w\']+)')

def admit(root, f, line):
    """replace the proof around [line] by Admitted; returns the lemma's name or None"""
    L = open(os.path.join(root, f)).read().split('\n')
    i = line - 1
    while i >= 0:
        m = HEAD.match(L[i])
        if m: break
        i -= 1
    if i < 0 or m.group(1) not in ('Lemma', 'Theorem', 'Corollary', 'Example', 'Fact', 'Remark'): return None
    name = m.group(2)
    # the Proof line
    k = i
    while k < len(L) and not re.search(r'\bProof\b', L[k]): k += 1
    if k > line - 1: return None          # error in the statement
    e = k
    while e < len(L) and not re.search(r'\b(Qed|Defined)\.', L[e]): e += 1
    pre = L[k][:L[k].index('Proof')]
    L[k:e + 1] = [pre + 'Proof. Admitted.'] + [''] * (e - k)
    open(os.path.join(root, f), 'w').write('\n'.join(L))
    return name

def build_file(root, f, broken):
    outs = ''
    for _ in range(60):
        rc, o, e = coqc(root, f)
        if rc == 0: return True, o
        m = re.search(r'File "[^"]*", line (\d+)', e)
        if not m: return False, (e or 'timeout')[-300:]
        n = admit(root, f, int(m.group(1)))
        if n is None: return False, e[-400:]
        broken.append(os.path.basename(f)[:-2] + '.' + n)
    return False, 'too many'

def run(mu):
    shutil.rmtree(SCR, ignore_errors=True)
    shutil.copytree(SRC, SCR)
    path = os.path.join(SCR, 'theories', mu['file'])
    t = open(path).read()
    if t.count(mu['old']) != 1: return dict(id=mu['id'], error='%d matches' % t.count(mu['old']))
    open(path, 'w').write(t.replace(mu['old'], mu['new']))
    d = deps(SCR)
    start = 'theories/' + mu['file']
    dirty = {start}
    for f in order():
        if any(x in dirty for x in d.get(f, [])): dirty.add(f)
    broken, fatal, done, text = [], {}, set(), ''
    todo = [f for f in order() if f in dirty]
    running = {}
    with cf.ThreadPoolExecutor(J) as ex:
        while todo or running:
            for f in list(todo):
                if len(running) >= J: break
                ds = [x for x in d.get(f, []) if x in dirty]
                if any(x in fatal for x in ds): fatal[f] = 'dependency'; todo.remove(f); continue
                if all(x in done for x in ds):
                    todo.remove(f); running[ex.submit(build_file, SCR, f, broken)] = f
            if not running: continue
            for fu in cf.wait(running, return_when=cf.FIRST_COMPLETED)[0]:
                f = running.pop(fu); ok, o = fu.result()
                if ok: done.add(f)
                else: fatal[f] = o
                if f.endswith('Properties.v'): text = o
    res = dict(id=mu['id'], broken_lemmas=broken, fatal=fatal)
    # Print Assumptions output, in order
    if 'theories/Properties.v' in done:
        names = re.findall(r'^Print Assumptions (\w+)\.', open(SCR + '/theories/Properties.v').read(), flags=re.M)
        parts = re.split(r'(Closed under the global context|^Axioms:)', text, flags=re.M)[1::2]
        if len(parts) == len(names):
            res['failed'] = [n for n, p in zip(names, parts) if p != 'Closed under the global context']
            res['still_proved'] = len(names) - len(res['failed'])
        else: res['failed'] = 'mismatch %d %d' % (len(parts), len(names))
    elif start in dirty and 'theories/Properties.v' not in dirty: res['failed'] = []
    return res

if __name__ == '__main__':
    mus = json.load(open(sys.argv[1]))
    want = sys.argv[2:]
    for mu in mus:
        if want and mu['id'] not in want: continue
        r = run(mu)
        print(json.dumps(r), flush=True)
