#!/usr/bin/env python3
"""Writes MANIFEST.json from the property list, the theorem names found in the
Prop*.v files (C07_take belongs to C07) and the notes below."""
import json, re, glob, os
root = os.path.dirname(os.path.dirname(os.path.abspath(__file__)))
notes = json.load(open(os.path.join(root, 'tools', 'notes.json')))
ids = [json.loads(l)['id'] for l in open(os.path.join(root, 'properties.jsonl')) if l.strip()]
thms = {}
for f in sorted(glob.glob(os.path.join(root, 'rocq/theories/Prop*.v'))):
    for m in re.finditer(r'^\s*(?:Theorem|Lemma)\s+((C\d+)_\w+)', open(f).read(), re.M):
        thms.setdefault(m.group(2), []).append(m.group(1))
claims = []
for i in ids:
    t = thms.get(i, [])
    if not t:
        st = 'partial'
    else:
        st = 'partial' if any(x.endswith('_partial') or x.endswith('_refuted') for x in t) else 'proved'
    n = notes.get(i, {})
    claims.append({"property": i, "status": n.get('status', st), "theorems": t,
                   "note": n.get('note', '' if t else 'not modelled yet')})
json.dump({"claims": claims}, open(os.path.join(root, 'MANIFEST.json'), 'w'), indent=1)
print({s: sum(c['status'] == s for c in claims) for s in ('proved', 'partial', 'not_applicable')},
      'missing:', [c['property'] for c in claims if not c['theorems']])
