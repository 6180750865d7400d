"""assumptions.py: Print Assumptions of every property theorem -> ASSUMPTIONS.md (grouped)."""
import re, os, subprocess, collections
T = '/verif/rocq/theories'
groups = collections.OrderedDict()
for pf in sorted(os.listdir(T)):
    if not re.match(r'P_\w+\.v$', pf): continue
    mod = pf[:-2]; thms = re.findall(r'^(?:Theorem|Lemma)\s+(C\d\d\w*)', open(f'{T}/{pf}').read(), re.M)
    open('/tmp/w/q_as.v', 'w').write(f'From Verif Require {mod}.\n' + ''.join(f'Goal True. idtac "@@@{t}". Abort.\nPrint Assumptions {mod}.{t}.\n' for t in thms))
    o = subprocess.run(['coqc', '-Q', T, 'Verif', '/tmp/w/q_as.v'], capture_output=True, text=True).stdout
    for blk in o.split('@@@')[1:]:
        t = blk.split()[0]; ax = tuple(sorted(set(re.findall(r'^([A-Za-z_][\w\.\']*)(?=\s*:|\s*$)', blk[len(t):], re.M)) - {'Axioms', 'Closed'}))
        groups.setdefault(ax, []).append(t)
with open('/verif/ASSUMPTIONS.md', 'w') as f:
    f.write('# Print Assumptions of every property theorem\n\nGenerated by tools/assumptions.py. All names are of the standard library of Coq 8.16.1.\n')
    for ax, ts in sorted(groups.items(), key=lambda x: len(x[0])):
        f.write('\n## ' + (', '.join(f'`{a}`' for a in ax) if ax else 'Closed under the global context') + '\n\n' + ', '.join(sorted(ts)) + '\n')
print([(len(a), len(t)) for a, t in groups.items()])
