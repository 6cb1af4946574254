"""Regenerate MANIFEST.json from the theorem names in rocq/theories/Prop*.v
(theorems are named Cnn_...) and the notes in tools/notes.json."""
import json, re, glob, os
root = os.path.dirname(os.path.dirname(os.path.abspath(__file__)))
thms = {}
for f in sorted(glob.glob(root + '/rocq/theories/Prop*.v')):
    for name in re.findall(r'^Theorem (C\d\d_\w+)', open(f).read(), re.M):
        thms.setdefault(name[:3], []).append(name)
notes = json.load(open(root + '/tools/notes.json'))
claims = []
for c in sorted(thms):
    n = notes.get(c, {})
    ts = thms[c]
    status = n.get('status') or ('partial' if any(t.endswith('_partial') for t in ts) else 'proved')
    claims.append({'property': c, 'status': status, 'theorems': ts, 'note': n.get('note', '')})
json.dump({'claims': claims}, open(root + '/MANIFEST.json', 'w'), indent=1)
ids = [json.loads(l)['id'] for l in open(root + '/properties.jsonl')]
print('missing:', [i for i in ids if i not in thms])
