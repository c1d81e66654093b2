#!/usr/bin/env python3
"""Regenerate MANIFEST.json. Theorem names are collected from rocq/theories/*Props.v by their Cnn_
prefix; statuses and notes come from tools/status.json (default status: proved)."""
import json, re, glob, os
root = os.path.dirname(os.path.dirname(os.path.abspath(__file__)))
st = json.load(open(os.path.join(root, 'tools/status.json')))
th = {}
for f in sorted(glob.glob(os.path.join(root, 'rocq/theories/*Props*.v'))):
    for m in re.finditer(r'^\s*(?:Theorem|Lemma|Corollary)\s+(C\d\d\d?_\w+)', open(f).read(), re.M):
        th.setdefault(m.group(1).split('_')[0], []).append(m.group(1))
props = [json.loads(l)['id'] for l in open(os.path.join(root, 'properties.jsonl'))]
claims = []
for p in props:
    s = st.get(p, {})
    t = th.get(p, [])
    if not t and s.get('status') != 'not_applicable':
        print('no theorems yet:', p)
        continue
    status = s.get('status')
    if status is None:
        bad = [x for x in t if x.endswith('_partial') or x.endswith('_refuted')]
        status = 'partial' if bad else 'proved'
    claims.append({'property': p, 'status': status, 'theorems': t, 'note': s.get('note', '')})
for p in th:
    if p not in props: print('WARNING unknown property', p)
json.dump({'claims': claims}, open(os.path.join(root, 'MANIFEST.json'), 'w'), indent=1)
print(len(claims), 'claims;', sum(c['status'] == 'proved' for c in claims), 'proved')
