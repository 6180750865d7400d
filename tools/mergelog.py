"""mergelog.py OUT.jsonl ... : append mutation results to seeded/LOG.jsonl (skips entries whose harness run was faulty)."""
import sys, json
seen = set()
try:
    for l in open('/verif/seeded/LOG.jsonl'):
        r = json.loads(l); seen.add((r['definition'], r['edit']))
except FileNotFoundError: pass
for f in sys.argv[1:]:
    for l in open(f):
        r = json.loads(l)
        if 'error' in r and not r['theorems_failed']: print('skip', r['definition'], r['error'][:100]); continue
        if (r['definition'], r['edit']) in seen: continue
        seen.add((r['definition'], r['edit']))
        o = {k: r[k] for k in ('definition', 'edit', 'claim_broken', 'theorems_failed', 'theorems_tightened')}
        if r.get('expect') == [] or r.get('note'): o['note'] = r.get('note', 'equivalent edit: the claim stays true, no theorem has to fail')
        open('/verif/seeded/LOG.jsonl', 'a').write(json.dumps(o) + '\n')
