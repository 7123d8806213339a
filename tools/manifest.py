"""Regenerate MANIFEST.json from the theorem names in rocq/theories/Props*.v and tools/notes.json."""
import glob, json, os, re
root = os.path.dirname(os.path.dirname(os.path.abspath(__file__)))
thms = {}
for f in sorted(glob.glob(root + '/rocq/theories/Props*.v')):
    for m in re.finditer(r'^Theorem (C\d\d\w*)', open(f).read(), re.M):
        thms.setdefault(m.group(1)[:3], []).append(m.group(1))
notes = json.load(open(root + '/tools/notes.json'))
props = [json.loads(l) for l in open(root + '/properties.jsonl')]
claims = []
for p in props:
    i = p['id']
    if i in thms:
        n = notes.get(i, {})
        claims.append({'property': i, 'status': n.get('status', 'proved'), 'theorems': thms[i], 'note': n.get('note', '')})
    elif i in notes:
        claims.append({'property': i, 'status': notes[i]['status'], 'theorems': [], 'note': notes[i]['note']})
assert set(thms) <= {p['id'] for p in props}, set(thms) - {p['id'] for p in props}
json.dump({'claims': claims}, open(root + '/MANIFEST.json', 'w'), indent=1)
print(len(claims), 'claims;', 'missing:', [p['id'] for p in props if p['id'] not in thms and p['id'] not in notes])
