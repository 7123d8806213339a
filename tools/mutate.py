"""Seeded-bug runs.  stdin: JSON lines {file, definition, old, new, edit, claim}.
Each edit is applied to a scratch copy of rocq/, which is rebuilt.  Proofs that fail are admitted in the
scratch copy so that the build goes on; the theorems of Props*.v that then rest on an admitted proof are
the ones that failed.  Appends one line per edit to seeded/LOG.jsonl (unless --dry)."""
import json, os, re, shutil, subprocess, sys, time
ROOT = os.path.dirname(os.path.dirname(os.path.abspath(__file__)))
MUT = os.environ.get('MUT', '/tmp/mut')
SCR = MUT + '/rocq'
SRC = MUT + '/src'   # the last commit
shutil.rmtree(SRC, ignore_errors=True); os.makedirs(SRC)
subprocess.run(f'git -C {ROOT} archive HEAD rocq | tar x -C {SRC}', shell=True, check=True)
STDLIB = {'sig_forall_dec', 'sig_not_dec', 'functional_extensionality_dep', 'constructive_indefinite_description', 'classic'}
dry = '--dry' in sys.argv

def sync():
    os.makedirs(MUT, exist_ok=True)
    if not os.path.exists(SCR):
        shutil.copytree(SRC + '/rocq', SCR)
    # restore sources changed by the last mutant, keep compiled files of untouched ones
    for f in sorted(os.listdir(SRC + '/rocq/theories')):
        if f.endswith('.v'):
            a, b = SRC + '/rocq/theories/' + f, SCR + '/theories/' + f
            if not os.path.exists(b) or open(a).read() != open(b).read():
                shutil.copy(a, b)
    shutil.copy(SRC + '/rocq/_CoqProject', SCR + '/_CoqProject')
    subprocess.run('coq_makefile -f _CoqProject -o Makefile', shell=True, cwd=SCR, capture_output=True)

def make():
    r = subprocess.run('timeout 1800 make -k -j4 "COQEXTRAFLAGS=-set Default\\ Timeout=60"', shell=True, cwd=SCR, capture_output=True, text=True)
    return r.returncode, r.stdout + r.stderr

def admit(path, line):
    s = open(path).read()
    lines = s.split('\n')
    k = line - 1
    while k >= 0 and not re.match(r'\s*(#\[\w+\]\s*)?(Lemma|Theorem|Example|Corollary|Fact|Remark|Definition|Fixpoint|Inductive|Instance)\b', lines[k]):
        k -= 1
    m = re.match(r'\s*(?:#\[\w+\]\s*)?(\w+)\s+([\w\']+)', lines[k])
    kind, name = m.group(1), m.group(2)
    start = sum(len(l) + 1 for l in lines[:k])
    pm = re.compile(r'\bProof\b[^.]*\.').search(s, start)
    q = re.compile(r'\b(Qed|Defined)\.').search(s, start)
    if kind in ('Definition', 'Fixpoint', 'Inductive', 'Instance') or not pm or not q or pm.start() > q.start():
        return None, name
    # error inside the statement, not the proof
    off = sum(len(l) + 1 for l in lines[:line - 1])
    s = s[:pm.start()] + 'Admitted.' + s[q.end():]
    open(path, 'w').write(s)
    return kind, name

def props(since=0):
    out = {}
    for f in sorted(os.listdir(SCR + '/theories')):
        if f.startswith('Props') and f.endswith('.v'):
            names = re.findall(r'^Theorem (\w+)', open(SCR + '/theories/' + f).read(), re.M)
            mod = f[:-2]
            if not os.path.exists(f'{SCR}/theories/{mod}.vo') or os.path.getmtime(f'{SCR}/theories/{mod}.vo') < since:
                continue
            t = f'From Verif Require {mod}.\n' + ''.join(f'Print Assumptions {mod}.{n}.\n' for n in names)
            open(MUT + '/chk.v', 'w').write(t)
            r = subprocess.run(['coqc', '-R', SCR + '/theories', 'Verif', MUT + '/chk.v'], capture_output=True, text=True)
            blocks = re.split(r'(?m)^(?=Closed under|Axioms:|Section Variables:)', r.stdout)
            blocks = [b for b in blocks if b.strip()]
            assert len(blocks) == len(names), (f, r.stdout[:500], r.stderr[:500])
            for n, b in zip(names, blocks):
                # a theorem failed when it rests on something that is not an axiom of the standard library
                ax = re.findall(r"(?m)^([A-Za-z_][\w.']*)\s*(?::|$)", b.split('Axioms:', 1)[-1]) if not b.startswith('Closed') else []
                out[n] = any(a.split('.')[-1] not in STDLIB for a in ax)
    return out

sync()
c, o = make()
if c != 0:
    print(o[-2000:]); sys.exit('baseline does not build')
base = props()
for l in sys.stdin:
    l = l.strip()
    if not l: continue
    m = json.loads(l)
    sync()
    p = SCR + '/theories/' + m['file']
    s = open(p).read()
    if s.count(m['old']) != m.get('count', 1):
        print('BAD EDIT', m['definition'], s.count(m['old'])); continue
    open(p, 'w').write(s.replace(m['old'], m['new']))
    lem, broken, t0 = [], None, time.time()
    for _ in range(200):
        code, out = make()
        if code == 0: break
        errs = re.findall(r'File "\./theories/(\w+\.v)", line (\d+), characters [^\n]*\nError', out)
        if not errs: broken = 'no error position: ' + out[-300:]; break
        stop = False
        for f, n in {(f): n for f, n in errs}.items():
            kind, name = admit(SCR + '/theories/' + f, int(n))
            if kind is None: broken = f'{f}: {name} no longer typechecks'; stop = True
            else: lem.append(name)
        if stop: break
    bad = props(t0) if broken is None else {}
    failed = [n for n, b in bad.items() if b and not base[n]]
    rec = {'definition': m['definition'], 'edit': m['edit'], 'claim': m['claim'], 'failed_lemmas': lem[:6],
           'theorems_failed': failed if broken is None else [broken], 'tightened': m.get('tightened', [])}
    want = m['claim'].split()[0].rstrip(':')
    flag = '' if (broken or any(f.startswith(want) for f in failed)) else '   <<<<<< SURVIVED ' + want
    print(m['definition'], '|', m['edit'], '|', failed or broken or 'NONE', flag, flush=True)
    if not dry and not flag:
        open(ROOT + '/seeded/LOG.jsonl', 'a').write(json.dumps(rec) + '\n')
