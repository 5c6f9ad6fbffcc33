#!/usr/bin/env python3
"""Regenerate MANIFEST.json from the theorem names in rocq/theories/Prop*.v.

A theorem named Cnn_... belongs to property Cnn.  Notes and non-default
statuses come from tools/notes.json."""
import glob, json, os, re
root = os.path.dirname(os.path.dirname(os.path.abspath(__file__)))
thms = {}
for f in sorted(glob.glob(root + '/rocq/theories/Prop*.v')):
    for m in re.finditer(r'^Theorem\s+((C\d+)_\w+)', open(f).read(), re.M):
        thms.setdefault(m.group(2), []).append(m.group(1))
notes = json.load(open(root + '/tools/notes.json'))
ids = [json.loads(l)['id'] for l in open(root + '/properties.jsonl')]
claims = []
for i in ids:
    n = notes.get(i, {})
    ts = thms.get(i, [])
    if not ts:
        continue
    bad = any(t.endswith('_refuted') or t.endswith('_partial') for t in ts)
    claims.append({'property': i, 'status': n.get('status', 'partial' if bad else 'proved'),
                   'theorems': ts, 'note': n.get('note', '')})
json.dump({'claims': claims}, open(root + '/MANIFEST.json', 'w'), indent=1)
print(len(claims), 'claims;', 'missing:', [i for i in ids if i not in thms])
