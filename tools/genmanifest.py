#!/usr/bin/env python3
"""Writes MANIFEST.json from the theorems CNN_* of the Prop*.v files and the notes below."""
import re, json, glob, os
ROOT = os.path.dirname(os.path.dirname(os.path.abspath(__file__)))
STATUS = json.load(open(ROOT + '/tools/status.json'))
th = {}
for f in sorted(glob.glob(ROOT + '/rocq/theories/Prop*.v')):
    mod = os.path.basename(f)[:-2]
    for m in re.finditer(r'^Theorem (C(\d\d)_\w+)', open(f).read(), re.M):
        th.setdefault('C' + m.group(2), []).append(m.group(1))
claims = []
for l in open(ROOT + '/properties.jsonl'):
    i = json.loads(l)['id']
    st = STATUS.get(i, {})
    names = th.get(i, [])
    status = st.get('status', 'proved' if names else 'partial')
    note = st.get('note', '' if names else 'No theorem yet.')
    claims.append({'property': i, 'status': status, 'theorems': names, 'note': note})
json.dump({'claims': claims}, open(ROOT + '/MANIFEST.json', 'w'), indent=1)
print({c['property']: (c['status'], len(c['theorems'])) for c in claims})
