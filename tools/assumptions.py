#!/usr/bin/env python3
"""Write ASSUMPTIONS.md from the Print Assumptions output of the Prop_*.v files.
Usage: assumptions.py [dir]   dir holds Prop_X.txt (output of coqc on Prop_X.v); without
it the files are compiled (after `make`) into a temporary directory."""
import glob, os, re, subprocess, sys, tempfile
root = os.path.join(os.path.dirname(os.path.abspath(__file__)), '..')
th = os.path.join(root, 'rocq', 'theories')
names = {'ClassicalDedekindReals.sig_not_dec': 'sig_not_dec', 'ClassicalDedekindReals.sig_forall_dec': 'sig_forall_dec',
         'FunctionalExtensionality.functional_extensionality_dep': 'functional_extensionality_dep', 'Classical_Prop.classic': 'classic'}
rows, classes = [], {}
for f in sorted(glob.glob(os.path.join(th, 'Prop_*.v'))):
    b = os.path.basename(f)[:-2]
    src = re.sub(r'\(\*.*?\*\)', '', open(f).read(), flags=re.S)
    order = re.findall(r'Print Assumptions (\w+)\.', src)
    if len(sys.argv) > 1:
        out = open(os.path.join(sys.argv[1], b + '.txt')).read()
    else:
        d = tempfile.mkdtemp()
        out = subprocess.run(['coqc', '-Q', th, 'Verif', '-o', os.path.join(d, b + '.vo'), f], capture_output=True, text=True, check=True).stdout
    parts = re.split(r'^(?=Axioms:|Closed under the global context)', out, flags=re.M)[1:]
    assert len(parts) == len(order), (b, len(parts), len(order))
    for t, p in zip(order, parts):
        if p.startswith('Closed'):
            ax = ()
        else:
            ax = tuple(sorted(names.get(x, x) for x in re.findall(r'^([A-Za-z_][\w.\']*)\s*(?::|$)', p[len('Axioms:'):], flags=re.M)))
        rows.append((b, t, ax)); classes.setdefault(ax, len(classes))
with open(os.path.join(root, 'ASSUMPTIONS.md'), 'w') as o:
    o.write('# What `Print Assumptions` lists for each property theorem\n\nGenerated by tools/assumptions.py. All entries are from the Coq standard library '
            '(classical reals, functional extensionality, excluded middle, primitive 63-bit integers).\n\n')
    for ax, i in sorted(classes.items(), key=lambda p: p[1]):
        o.write(f'* **{chr(65 + i)}**: ' + (', '.join(f'`{a}`' for a in ax) if ax else 'nothing (closed under the global context)') + '\n')
    last = None
    for b, t, ax in rows:
        if b != last:
            o.write(f'\n## {b}.v\n\n'); last = b
        o.write(f'* `{t}`: {chr(65 + classes[ax])}\n')
print(len(rows), 'theorems', len(classes), 'classes')
