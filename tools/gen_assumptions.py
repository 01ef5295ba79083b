"""Write the output of Print Assumptions for every property theorem into DESIGN.md (between the markers).
Run after a build, from anywhere."""
import glob, os, re, subprocess, tempfile
from concurrent.futures import ThreadPoolExecutor
root = os.path.dirname(os.path.dirname(os.path.abspath(__file__)))
th = os.path.join(root, 'rocq', 'theories')
def query(f):
    mod = os.path.basename(f)[:-2]
    names = re.findall(r'^Theorem (C\d\d\w*)', open(f).read(), re.M)
    with tempfile.TemporaryDirectory() as d:
        p = os.path.join(d, 'q.v')
        open(p, 'w').write(f'From Verif Require {mod}.\n' + ''.join(f'Print Assumptions Verif.{mod}.{n}.\n' for n in names))
        out = subprocess.run(['coqc', '-q', '-Q', th, 'Verif', p], capture_output=True, text=True)
        assert out.returncode == 0, out.stderr
    blocks = re.split(r'^(?=Axioms:|Closed under)', out.stdout, flags=re.M)[1:]
    assert len(blocks) == len(names), (mod, len(blocks), len(names))
    return list(zip(names, blocks))
groups = {}
with ThreadPoolExecutor(4) as pool:
    for pairs in pool.map(query, sorted(glob.glob(th + '/Prop_*.v'))):
        for n, b in pairs:
            ax = frozenset(re.findall(r'^([A-Za-z_][\w.]*)(?= :|\n)', b, re.M)) - {'Axioms', 'Closed'} if b.startswith('Axioms') else frozenset()
            ax = frozenset(a.split('.')[-1] for a in ax)
            groups.setdefault(ax, []).append(n)
txt = ''
for ax, ns in sorted(groups.items(), key=lambda kv: (len(kv[0]), sorted(kv[0]))):
    txt += ('* ' + (', '.join('`%s`' % a for a in sorted(ax)) if ax else 'no axioms (closed under the global context)') + ':\n')
    txt += '  ' + ', '.join(sorted(ns)) + '\n'
p = os.path.join(root, 'DESIGN.md')
s = open(p).read()
s = re.sub(r'(<!-- assumptions -->\n).*(<!-- end assumptions -->)', lambda m: m[1] + txt + m[2], s, flags=re.S)
open(p, 'w').write(s)
