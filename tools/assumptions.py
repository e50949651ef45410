"""Prints the table of ASSUMPTIONS.md: what Print Assumptions lists for every theorem named in MANIFEST.json.  Run after a build."""
import json, subprocess, re, os, glob, tempfile
root = os.path.join(os.path.dirname(os.path.abspath(__file__)), '..')
m = json.load(open(root + '/MANIFEST.json'))
thms = [(c['property'], t) for c in m['claims'] for t in c['theorems']]
where = {}
for f in glob.glob(root + '/rocq/theories/*.v'):
    for l in open(f):
        g = re.match(r'\s*(?:Theorem|Lemma|Corollary) (\w+)', l)
        if g: where.setdefault(g.group(1), os.path.basename(f)[:-2])
mods = sorted({where[t] for _, t in thms})
src = 'From Verif Require ' + ' '.join(mods) + '.\n' + ''.join('Print Assumptions %s.%s.\n' % (where[t], t) for _, t in thms)
d = tempfile.mkdtemp(); open(d + '/A.v', 'w').write(src)
out = subprocess.run(['coqc', '-Q', root + '/rocq/theories', 'Verif', d + '/A.v'], capture_output=True, text=True).stdout
blocks, cur = [], None
for l in out.split('\n'):
    if l.startswith('Closed under') or l.startswith('Axioms:'):
        cur = []; blocks.append(cur)
    else:
        g = re.match(r'(\S+)( :|$)', l)
        if g and cur is not None and l.strip() and not l.startswith(' '): cur.append(g.group(1).split('.')[-1])
assert len(blocks) == len(thms), (len(blocks), len(thms))
short = {'sig_forall_dec': 'F', 'sig_not_dec': 'N', 'functional_extensionality_dep': 'E', 'classic': 'C'}
print('''# What each theorem rests on

Output of `Print Assumptions`, one row per theorem of MANIFEST.json (`python3 tools/assumptions.py`).
F = `ClassicalDedekindReals.sig_forall_dec`, N = `ClassicalDedekindReals.sig_not_dec`, E = `FunctionalExtensionality.functional_extensionality_dep`,
C = `Classical_Prop.classic`; all four belong to Coq's standard library (they come with the real numbers). "-" = closed under the global context.

| property | theorem | file | axioms |
|---|---|---|---|''')
for (p, t), b in zip(thms, blocks):
    print('| %s | `%s` | %s | %s |' % (p, t, where[t] + '.v', ' '.join(sorted({short.get(x, x) for x in b})) or '-'))
