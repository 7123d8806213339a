"""Print Assumptions of every theorem of the Props files, grouped by what it lists (needs a built rocq/)."""
import os, re, subprocess, sys, tempfile
root = os.path.dirname(os.path.dirname(os.path.abspath(__file__)))
T = root + '/rocq/theories'
groups = {}
for f in sorted(os.listdir(T)):
    if not (f.startswith('Props') and f.endswith('.v')): continue
    names = re.findall(r'^Theorem (\w+)', open(f'{T}/{f}').read(), re.M)
    d = tempfile.mkdtemp()
    open(d + '/chk.v', 'w').write(f'From Verif Require {f[:-2]}.\n' + ''.join(f'Print Assumptions {f[:-2]}.{n}.\n' for n in names))
    r = subprocess.run(['coqc', '-w', 'none', '-R', T, 'Verif', d + '/chk.v'], capture_output=True, text=True)
    blocks = [b for b in re.split(r'(?m)^(?=Closed under|Axioms:)', r.stdout) if b.strip()]
    assert r.returncode == 0 and len(blocks) == len(names), (f, r.stderr[:300], len(blocks), len(names))
    for n, b in zip(names, blocks):
        ax = () if b.startswith('Closed') else tuple(sorted(re.findall(r"(?m)^([A-Za-z_][\w.']*)\s*(?::|$)", b.split('Axioms:', 1)[1])))
        groups.setdefault(ax, []).append(n)
for ax, ns in sorted(groups.items()):
    print(f'{len(ns)} theorems: ' + (', '.join(ax) or 'Closed under the global context'))
    if ax: print('  ' + ', '.join(ns))
