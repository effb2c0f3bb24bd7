#!/usr/bin/env python3
"""MANIFEST.json from the Prop*.v files: theorem C<id>_... belongs to claim C<id>.
Status and notes are in tools/status.json."""
import json, re, glob, os
root = os.path.dirname(os.path.dirname(os.path.abspath(__file__)))
thms = {}
for f in sorted(glob.glob(root + '/rocq/theories/Prop*.v')):
    for m in re.finditer(r'^Theorem (C(\d\d)_\w+)', open(f).read(), re.M):
        thms.setdefault('C' + m.group(2), []).append(m.group(1))
st = json.load(open(root + '/tools/status.json'))
props = [json.loads(l)['id'] for l in open(root + '/properties.jsonl')]
claims = []
for p in props:
    if p in thms:
        s = st.get(p, {"status": "proved", "note": ""})
        claims.append({"property": p, "status": s["status"], "theorems": thms[p], "note": s["note"]})
    elif p in st and st[p]["status"] == "not_applicable":
        claims.append({"property": p, "status": "not_applicable", "theorems": [], "note": st[p]["note"]})
json.dump({"claims": claims}, open(root + '/MANIFEST.json', 'w'), indent=1)
print(len(claims), 'of', len(props), 'missing', [p for p in props if p not in thms])
