"""Check the citations 'name a-b' of the model files against the functions of /repo (read as text)."""
import ast, os, re
root = os.path.dirname(os.path.dirname(os.path.abspath(__file__)))
defs = {}
for d, _, fs in os.walk('/repo/src/quanguru'):
    for f in fs:
        if f.endswith('.py'):
            for n in ast.walk(ast.parse(open(os.path.join(d, f)).read())):
                if isinstance(n, (ast.FunctionDef, ast.ClassDef)):
                    first = min([n.lineno] + [x.lineno for x in n.decorator_list])
                    defs.setdefault((f, n.name), []).append((first, n.end_lineno))
T = root + '/rocq/theories'
bad = tot = 0
for f in sorted(os.listdir(T)):
    if not f.endswith('.v'): continue
    s = open(f'{T}/{f}').read()
    for c in re.finditer(r'\(\*\*.*?\*\)', s, re.S):
        cur = None
        for m in re.finditer(r'(\w+\.py)|\b([A-Za-z_]\w*)\s+(\d+)-(\d+)', c.group(0)):
            if m.group(1): cur = m.group(1); continue
            if not cur: continue
            name, a, b = m.group(2), int(m.group(3)), int(m.group(4))
            ds = defs.get((cur, name)) or defs.get((cur, '_' + name))
            if not ds: continue
            tot += 1
            if not any(x <= a and b <= y + 1 for x, y in ds):
                bad += 1
                print(f"{f}:{s[:c.start()].count(chr(10)) + 1} {cur} {name} {a}-{b} actual {ds}")
print(tot, 'citations,', bad, 'outside their function')
