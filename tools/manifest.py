"""Writes MANIFEST.json from the claims below, checking that every theorem exists."""
import json, re, glob, sys
names = set()
for f in glob.glob('/verif/rocq/theories/P_*.v'):
    names |= set(re.findall(r'^\s*(?:Theorem|Lemma|Corollary)\s+(\w+)', open(f).read(), re.M))
claims = json.load(open('/verif/tools/claims.json'))
props = [json.loads(l)['id'] for l in open('/verif/properties.jsonl')]
out = []
for c in claims:
    for t in c['theorems']:
        if t not in names: sys.exit('missing theorem ' + t)
    if c['property'] not in props: sys.exit('unknown property ' + c['property'])
    out.append(c)
used = {t for c in claims for t in c['theorems']}
for n in sorted(names - used):
    if re.match(r'C\d\d_', n): print('not claimed:', n)
print('properties without claim:', [p for p in props if p not in {c['property'] for c in claims}])
json.dump({"claims": out}, open('/verif/MANIFEST.json', 'w'), indent=1)
