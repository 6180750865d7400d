"""Seeded-bug harness. usage: mutate.py SPEC.json OUT.jsonl
SPEC is a list of {"file","def","old","new","claim","expect":[property ids]}. Every edit is applied to a scratch copy of
the built development (BASE); make is run; each proof that breaks is replaced by Admitted so that the build goes on,
and the property theorems whose Print Assumptions then mention a broken lemma (or that broke themselves) are reported."""
import sys, os, re, json, subprocess, shutil
BASE = '/tmp/w/mut/base'; WORK = os.environ.get('WORK', '/tmp/w/mut/work')
def sh(c, **k): return subprocess.run(c, shell=True, capture_output=True, text=True, **k)
def admit_at(path, spans):
    txt = open(path).read()
    for p, q in sorted(spans, reverse=True):
        txt = txt[:p] + 'Proof. Admitted.' + '\n' * txt[p:q].count('\n') + txt[q:]
    open(path, 'w').write(txt)
def proofs(txt):
    """(name, kind, start of Proof., end of Qed.)"""
    res = []
    for m in re.finditer(r'^\s*(?:Local |Global )?(Lemma|Theorem|Example|Corollary|Remark|Fact|Instance|Definition)\s+([\w\']+)', txt, re.M):
        nxt = re.compile(r'^\s*(?:Local |Global )?(?:Lemma|Theorem|Example|Corollary|Remark|Fact|Instance|Definition|Fixpoint)\s', re.M).search(txt, m.end())
        p = txt.find('Proof.', m.end()); q = re.compile(r'\b(Qed|Defined)\.').search(txt, m.end())
        if p < 0 or not q or (nxt and nxt.start() < p): continue
        res.append((m.group(2), m.group(1), p, q.end()))
    return res
def fix(path, line):
    """admit every failing proof of the file at once; returns their names"""
    txt = open(path).read(); pl = proofs(txt)
    t2 = txt
    for k in range(len(pl) - 1, -1, -1):
        n, kind, p, q = pl[k]
        t2 = t2[:q] + f'\nEval cbv beta zeta in (let _ := @{n} in forall (MARK_{k}:nat), MARK_{k}=MARK_{k}).\nAdmitted.\n' + t2[q:]
    out = sh('timeout 1200 coqtop -q -Q theories Verif 2>&1', cwd=WORK, input='Set Default Timeout 100.\n' + t2).stdout
    # the name is known exactly when its Qed succeeded; the error echo has no blank before the colon
    ok = {int(x) for x in re.findall(r'MARK_(\d+) : nat', out)}
    bad = [k for k in range(len(pl)) if k not in ok]
    pos = len('\n'.join(txt.split('\n')[:line - 1])) + 1  # coqc stops there, even if coqtop gets over it
    if line > 0: bad = sorted(set(bad) | {k for k in range(len(pl)) if pl[k][2] <= pos < pl[k][3]})
    admit_at(path, [(pl[k][2], pl[k][3]) for k in bad])
    return [pl[k][0] for k in bad]
def run(mu):
    shutil.rmtree(WORK, ignore_errors=True); sh(f'cp -a {BASE} {WORK}')
    f = f'{WORK}/theories/{mu["file"]}.v'; s = open(f).read()
    if s.count(mu['old']) < 1: return {'error': 'pattern not found'}
    s = s.replace(mu['old'], mu['new']) if mu.get('all') else s.replace(mu['old'], mu['new'], 1)
    open(f, 'w').write(s)
    broken, order = {}, []
    if mu.get('expect') and not mu.get('targets'):
        mu['targets'] = [x[:-2] for x in sorted(os.listdir(f'{WORK}/theories')) if re.match(r'P_\w+\.v$', x)
                         and any(re.search(r'^(?:Theorem|Lemma)\s+' + e, open(f'{WORK}/theories/{x}').read(), re.M) for e in mu['expect'])]
    for it in range(60):
        tg = ' '.join(f'theories/{t}.vo' for t in mu.get('targets', []))
        r = sh(f'timeout 3000 make -k -j2 COQC="timeout 400 coqc" {tg} 2>&1', cwd=WORK); out = r.stdout
        hung = re.findall(r'theories/(\w+)\.vo\] (?:Error 124|Terminated)', out)
        errs = [(h, '0', 'timeout') for h in hung] + re.findall(r'File "\./theories/(\w+)\.v", line (\d+), characters [^\n]*\n\s*Error:?([^\n]*\n?[^\n]*)', out)
        errs = [(a, b, c) for a, b, c in errs]
        if r.returncode == 0: break
        if not errs: return {'error': 'build failed: ' + out[-400:]}
        prog = False
        for fn in dict.fromkeys(e[0] for e in errs):
            bad = fix(f'{WORK}/theories/{fn}.v', min(int(e[1]) for e in errs if e[0] == fn))
            if not bad: return {'error': f'definition broken in {fn}: {[e for e in errs if e[0] == fn][:1]}', 'broken': order}
            for name in bad:
                if (fn, name) not in broken: broken[(fn, name)] = ''; order.append((fn, name)); prog = True
        if not prog: return {'error': 'no progress ' + str(errs[:2]), 'broken': order}
    else: return {'error': 'too many iterations', 'broken': order}
    names = {n for _, n in broken}; failed = set()
    for pf in sorted(os.listdir(f'{WORK}/theories')):
        if not re.match(r'P_\w+\.v$', pf) or not os.path.exists(f'{WORK}/theories/{pf}o'): continue
        if mu.get('targets') and pf[:-2] not in mu['targets']: continue
        mod = pf[:-2]; thms = re.findall(r'^(?:Theorem|Lemma)\s+(C\d\d\w*)', open(f'{WORK}/theories/{pf}').read(), re.M)
        failed |= {t for t in thms if (mod, t) in broken}
        if not names: continue
        q = f'From Verif Require {mod}.\n' + ''.join(f'Fail Fail Print {mod}.{t}.\nPrint Assumptions {mod}.{t}.\n' for t in thms if (mod, t) not in broken)
        open(f'{WORK}/q.v', 'w').write(f'From Verif Require {mod}.\n' + ''.join(f'Goal True. idtac "@@@{t}". Abort.\nPrint Assumptions {mod}.{t}.\n' for t in thms if (mod, t) not in broken))
        o = sh('coqc -Q theories Verif q.v', cwd=WORK).stdout
        for blk in o.split('@@@')[1:]:
            t = blk.split()[0].strip(); ax = set(re.findall(r'^([\w\.\']+)\s*$|^([\w\.\']+)\s*:', blk, re.M))
            flat = {x.split('.')[-1] for pr in ax for x in pr if x}
            if flat & names: failed.add(t)
    return {'failed': sorted(failed), 'first_broken': [f'{a}.{b}' for a, b in order][:12]}
if __name__ == '__main__':
    for mu in json.load(open(sys.argv[1])):
        r = run(mu)
        rec = {'definition': mu['file'] + '.' + mu['def'], 'edit': f"{mu['old']}  ->  {mu['new']}", 'claim_broken': mu['claim'],
               'theorems_failed': r.get('failed', []), 'first_broken_lemmas': r.get('first_broken', r.get('broken', [])), 'theorems_tightened': []}
        if 'error' in r: rec['error'] = r['error']
        rec['expect'] = mu.get('expect', [])
        rec['missed'] = [e for e in mu.get('expect', []) if not any(t.startswith(e) for t in r.get('failed', []))]
        open(sys.argv[2], 'a').write(json.dumps(rec) + '\n'); print(rec['definition'], len(rec['theorems_failed']), rec['missed'], rec.get('error', '')[:200], flush=True)
