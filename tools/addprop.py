"""Append properties: reads JSON objects (one per line) on stdin and a design line in key 'plan'."""
import json, os, sys
root = os.path.dirname(os.path.dirname(os.path.abspath(__file__)))
have = {json.loads(l)['id'] for l in open(root + '/properties.jsonl')}
design = open(root + '/DESIGN.md').read()
for l in sys.stdin:
    if not l.strip(): continue
    p = json.loads(l)
    plan = p.pop('plan')
    assert p['id'] not in have and {'id','title','statement','quantifier','why_tests_cant','anchors'} <= set(p), p['id']
    open(root + '/properties.jsonl', 'a').write(json.dumps(p) + '\n')
    lines = design.split('\n')
    last = max(i for i, x in enumerate(lines) if x.startswith('- **C'))
    lines.insert(last + 1, f"- **{p['id']} {p['title']}** — {plan}")
    design = '\n'.join(lines)
open(root + '/DESIGN.md', 'w').write(design)
