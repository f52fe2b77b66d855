#!/usr/bin/env python3
"""Write MANIFEST.json and the file list of rocq/_CoqProject from Prop_*.v.

STATUS gives (status, note) per property; the theorem names are collected from
the property files."""
import glob, json, os, re
root = os.path.join(os.path.dirname(os.path.abspath(__file__)), '..')
ns = {}
exec(open(os.path.join(root, 'tools', 'status.py')).read(), ns)
STATUS = ns['STATUS']
ths = {}
for f in sorted(glob.glob(os.path.join(root, 'rocq/theories/Prop_*.v'))):
    for m in re.finditer(r'^Theorem (C\d\d+)(\w*)', open(f).read(), re.M):
        ths.setdefault(m.group(1), []).append(m.group(1) + m.group(2))
claims = []
for l in open(os.path.join(root, 'properties.jsonl')):
    i = json.loads(l)['id']
    if i not in ths:
        continue
    st, note = STATUS.get(i, ('proved', ''))
    claims.append({'property': i, 'status': st, 'theorems': ths[i], 'note': note})
with open(os.path.join(root, 'MANIFEST.json'), 'w') as o:
    o.write('{"claims": [\n' + ',\n'.join(json.dumps(c) for c in claims) + '\n]}\n')
files = sorted(os.path.basename(f) for f in glob.glob(os.path.join(root, 'rocq/theories/*.v')))
with open(os.path.join(root, 'rocq/_CoqProject'), 'w') as o:
    o.write('-Q theories Verif\n' + ''.join('theories/%s\n' % f for f in files))
print(len(claims), 'claims;', {s: sum(c['status'] == s for c in claims) for s in ('proved', 'partial')})
