#!/usr/bin/env python3
"""Regenerate MANIFEST.json: theorem names are collected from rocq/theories/T_*.v by their Cnn_ prefix;
the status and note come from tools/status.json."""
import json, re, glob, os
root = os.path.dirname(os.path.dirname(os.path.abspath(__file__)))
thms = {}
for f in sorted(glob.glob(root + '/rocq/theories/T_*.v')):
    for m in re.finditer(r'^(?:Theorem|Lemma)\s+(C\d\d)_(\w+)', open(f).read(), re.M):
        thms.setdefault(m.group(1), []).append(m.group(1) + '_' + m.group(2))
status = json.load(open(root + '/tools/status.json'))
claims = []
for l in open(root + '/properties.jsonl'):
    p = json.loads(l)['id']
    st = status.get(p, {})
    claims.append({"property": p, "status": st.get("status", "partial"), "theorems": thms.get(p, []),
                   "note": st.get("note", "not yet proved" if p not in thms else "")})
json.dump({"claims": claims}, open(root + '/MANIFEST.json', 'w'), indent=1)
print({c['property']: (c['status'], len(c['theorems'])) for c in claims if c['theorems']})
