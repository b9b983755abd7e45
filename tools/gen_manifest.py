"""Write MANIFEST.json from the theorem names found in rocq/theories/*Properties.v.
A theorem belongs to property Cnn when its name starts with Cnn_."""
import re, glob, json, os
root = os.path.join(os.path.dirname(__file__), '..')
thms = {}
for f in sorted(glob.glob(os.path.join(root, 'rocq/theories/*Properties.v'))):
    for m in re.finditer(r'^Theorem (C\d\d+)_(\w+)', open(f).read(), re.M):
        thms.setdefault(m.group(1), []).append(m.group(1) + '_' + m.group(2))
notes = json.load(open(os.path.join(root, 'tools/notes.json')))
claims = []
for l in open(os.path.join(root, 'properties.jsonl')):
    p = json.loads(l)['id']
    t = thms.get(p, [])
    n = notes.get(p, {})
    status = n.get('status') or ('proved' if t and not any(x.endswith('_partial') for x in t) else 'partial')
    claims.append({'property': p, 'status': status, 'theorems': t, 'note': n.get('note', '' if t else 'not proved yet')})
json.dump({'claims': claims}, open(os.path.join(root, 'MANIFEST.json'), 'w'), indent=1)
