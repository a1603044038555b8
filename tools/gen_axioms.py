#!/usr/bin/env python3
"""Write AXIOMS.md: what `Print Assumptions` reports for every property theorem.
Needs a built tree (make in rocq/); recompiles the Props*.v files into a temporary directory."""
import re, glob, os, subprocess, tempfile
root = os.path.dirname(os.path.dirname(os.path.abspath(__file__)))
th = os.path.join(root, 'rocq/theories')
key = lambda f: int(re.search(r'Props(\d+)', f).group(1))
rows, sets = [], {}
for f in sorted(glob.glob(th + '/Props*.v'), key=key):
    src = open(f).read()
    names = re.findall(r'^Print Assumptions (\w+)\.', src, re.M)
    with tempfile.TemporaryDirectory() as d:
        out = subprocess.run(['coqc', '-Q', th, 'Verif', '-o', d + '/' + os.path.basename(f) + 'o', f],
                             capture_output=True, text=True, cwd=th).stdout
    blocks, cur = [], None
    for l in out.split('\n'):
        if l.startswith('Closed under the global context'):
            blocks.append([]); cur = None
        elif l.startswith('Axioms:'):
            cur = []; blocks.append(cur)
        elif cur is not None:
            m = re.match(r'^([A-Za-z_][\w.\']*)( :|$)', l)
            if m: cur.append(m.group(1))
    assert len(blocks) == len(names), (f, len(blocks), len(names))
    for n, b in zip(names, blocks):
        k = tuple(sorted(set(b)))
        lab = sets.setdefault(k, 'none' if not k else 'S%d' % (len([s for s in sets if s]) + 1))
        rows.append((n, os.path.basename(f), lab))
with open(root + '/AXIOMS.md', 'w') as o:
    o.write('# Print Assumptions, theorem by theorem\n\n'
            'Generated by tools/gen_axioms.py from the output of the build.  '
            '"none" is "Closed under the global context".\n\n')
    for k, lab in sets.items():
        if k:
            o.write('* **%s**: %s\n' % (lab, ', '.join('`%s`' % a for a in k)))
    o.write('\n| theorem | file | axioms |\n|---|---|---|\n')
    for r in rows:
        o.write('| %s | %s | %s |\n' % r)
print(len(rows), 'theorems;', {v: len([r for r in rows if r[2] == v]) for v in sets.values()})
