"""Writes MANIFEST.json: status and note per property; theorems are collected from the P_*.v files by prefix."""
import json, re, glob
NOTES = {
 "C01": ("proved", "bijection onto Z>=0 and order, every n"),
 "C02": ("proved", "bijection, order, even index <-> cosine, every n"),
 "C03": ("proved", "bijection, order, every n"),
 "C04": ("proved", "every index in the code's search range (osa<=1595, noll<=1596, fringe range characterised)"),
 "C05": ("partial", "the claim is false of the code; the refutation and the exact out-of-range behaviour are proved"),
 "C06": ("partial", "round trip proved in the search range; refuted beyond it"),
 "C07": ("partial", "round trip proved when the numpy integer is converted with int(); the literal composition is refuted"),
 "C08": ("partial", "refuted (abs m > n accepted for n > 0); the exact acceptance set is proved"),
 "C09": ("proved", "all keyword spellings"),
 "C10": ("partial", "equality and transitivity proved; trichotomy only for valid orders, refuted for the accepted abs m > n objects"),
 "C11": ("proved", "exact arithmetic"),
 "C12": ("proved", "exact arithmetic"),
 "C13": ("partial", "proved for n-|m|<=38; refuted for every polynomial with n-|m|>=40 (calc_zernike_pol.py 550-551)"),
 "C14": ("proved", "exact arithmetic"),
 "C15": ("proved", "Coquelicot Riemann integrals"),
 "C16": ("proved", ""),
 "C17": ("proved", ""),
 "C18": ("proved", "all histories of calls, including calls aborted by RecursionError; mutation of a returned dict by the caller is not modelled here"),
 "C19": ("proved", "every valid (m,n), any history"),
 "C25": ("proved", ""),
 "C48": ("partial", "names distinct and present for n<=7; refuted for str() of higher orders"),
}
exec(open('/verif/tools/notes_extra.py').read()) if __import__('os').path.exists('/verif/tools/notes_extra.py') else None
thms = {}
for f in sorted(glob.glob('/verif/rocq/theories/P_*.v')):
    for m in re.finditer(r'^(?:Theorem|Lemma)\s+(C\d\d\w*)', open(f).read(), re.M):
        thms.setdefault(m.group(1)[:3], []).append(m.group(1))
claims = []
for l in open('/verif/properties.jsonl'):
    i = json.loads(l)['id']
    if i in NOTES:
        st, note = NOTES[i]
        assert i in thms or st == 'not_applicable', i
        claims.append({"property": i, "status": st, "theorems": thms.get(i, []), "note": note})
    else:
        assert i not in thms, i
json.dump({"claims": claims}, open('/verif/MANIFEST.json', 'w'), indent=1)
print(len(claims), sum(len(c['theorems']) for c in claims))
