"""Change fields of properties: reads JSON objects with an id and the fields to overwrite; key 'note' goes to tools/notes.json."""
import json, os, sys
root = os.path.dirname(os.path.dirname(os.path.abspath(__file__)))
P = [json.loads(l) for l in open(root + '/properties.jsonl')]
N = json.load(open(root + '/tools/notes.json'))
by = {p['id']: p for p in P}
for l in sys.stdin:
    if not l.strip(): continue
    d = json.loads(l); i = d.pop('id')
    note = d.pop('note', None); status = d.pop('status', 'proved')
    by[i].update(d)
    if note is not None: N[i] = {'status': status, 'note': note}
open(root + '/properties.jsonl', 'w').write(''.join(json.dumps(p) + '\n' for p in P))
json.dump(N, open(root + '/tools/notes.json', 'w'), indent=1)
