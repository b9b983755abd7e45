"""Rewrite the list of axioms per theorem in DESIGN.md from Print Assumptions (needs a built rocq/ directory)."""
import glob, os, re, subprocess, tempfile

ROOT = os.path.dirname(os.path.dirname(os.path.abspath(__file__)))
TH = os.path.join(ROOT, 'rocq', 'theories')
BEGIN, END = '<!-- assumptions: begin -->', '<!-- assumptions: end -->'
mods = {}
for f in glob.glob(os.path.join(TH, '*Properties.v')):
    ts = re.findall(r'^Theorem (C\d\d+_\w+)', open(f).read(), re.M)
    if ts:
        mods[os.path.basename(f)[:-2]] = ts
out = {}
with tempfile.TemporaryDirectory() as d:
    for f, ts in sorted(mods.items()):
        src = 'From Verif Require %s.\n' % f
        for t in ts:
            src += 'Goal True. idtac "@@%s". Abort.\nPrint Assumptions %s.%s.\n' % (t, f, t)
        p = os.path.join(d, 'X.v')
        open(p, 'w').write(src)
        o = subprocess.run(['timeout', '600', 'coqc', '-Q', TH, 'Verif', p], capture_output=True, text=True)
        if o.returncode:
            raise SystemExit('%s: %s' % (f, o.stderr))
        cur = None
        for l in o.stdout.split('\n'):
            if l.startswith('@@'):
                cur = l[2:]
                out[cur] = []
            elif cur and re.match(r'^[A-Za-z_][\w.]*( :|$)', l) and not l.startswith(('Axioms', 'Closed')):
                out[cur].append(l.split(' ')[0])
groups = {}
for t, a in out.items():
    groups.setdefault(tuple(sorted(x.split('.')[-1] for x in a)), []).append(t)
text = []
for a, ts in sorted(groups.items(), key=lambda g: len(g[0])):
    head = ', '.join('`%s`' % x for x in a) if a else 'no axiom (closed under the global context)'
    text.append('* %s: %d theorems' % (head, len(ts)))
    by = {}
    for t in ts:
        c, r = t.split('_', 1)
        by.setdefault(c, []).append(r)
    text.append('  ' + '; '.join('%s %s' % (c, ', '.join(sorted(by[c]))) for c in sorted(by)))
s = open(os.path.join(ROOT, 'DESIGN.md')).read()
i, j = s.index(BEGIN) + len(BEGIN), s.index(END)
open(os.path.join(ROOT, 'DESIGN.md'), 'w').write(s[:i] + '\n' + '\n'.join(text) + '\n' + s[j:])
