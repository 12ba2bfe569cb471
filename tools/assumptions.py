"""Run Print Assumptions on every theorem of MANIFEST.json against the built theories and
write the result, grouped by equal axiom sets, into section 5 of DESIGN.md."""
import json, re, subprocess, tempfile, os, glob
root = os.path.dirname(os.path.dirname(os.path.abspath(__file__)))
man = json.load(open(root + '/MANIFEST.json'))
where = {}
for f in glob.glob(root + '/rocq/theories/*.v'):
    mod = os.path.basename(f)[:-2]
    for m in re.finditer(r'^\s*Theorem (C\d+_\w+)', open(f).read(), re.M):
        where[m.group(1)] = mod
names = [t for c in man['claims'] for t in c['theorems']]
names = [n.split('.')[-1] for n in names]
with tempfile.TemporaryDirectory() as d:
    src = d + '/A.v'
    with open(src, 'w') as o:
        for mod in sorted(set(where[n] for n in names)):
            o.write('From Verif Require %s.\n' % mod)
        for n in names:
            o.write('Print Assumptions Verif.%s.%s.\n' % (where[n], n))
    out = subprocess.run(['coqc', '-Q', root + '/rocq/theories', 'Verif', src], capture_output=True, text=True)
    assert out.returncode == 0, out.stderr
blocks, cur = [], None
for line in out.stdout.splitlines():
    if line.startswith('Closed under'):
        blocks.append(()); cur = None
    elif line.startswith('Axioms:'):
        cur = []; blocks.append(cur)
    elif cur is not None:
        m = re.match(r'^(\S+)\s*(:|$)', line)
        if m: cur.append(m.group(1))
assert len(blocks) == len(names), (len(blocks), len(names))
groups = {}
for n, b in zip(names, blocks):
    groups.setdefault(tuple(sorted(set(b))), []).append(n)
text = []
short = lambda a: a.split('.')[-1]
for i, (ax, ts) in enumerate(sorted(groups.items(), key=lambda p: (len(p[0]), p[0]))):
    text.append('**Group %d** - %s' % (i, 'closed under the global context (no axiom)' if not ax else ', '.join('`%s`' % a for a in ax)))
    text.append('')
    text.append('Theorems (%d): %s' % (len(ts), ', '.join(ts)))
    text.append('')
f = root + '/DESIGN.md'
s = open(f).read()
a, b = '<!-- assumptions:begin -->', '<!-- assumptions:end -->'
i, j = s.index(a) + len(a), s.index(b)
open(f, 'w').write(s[:i] + '\n' + '\n'.join(text) + s[j:])
print(len(groups), 'groups', sorted(set(x for g in groups for x in g)))
