#!/usr/bin/env python3
"""Transliterate /repo/src/legendre/bogaert/data.rs into rocq/theories/LegendreData.v.

Every decimal literal becomes a pair (m, e) standing for m * 10^e."""
import re, sys
src = open('/repo/src/legendre/bogaert/data.rs').read()
lines = src.split('\n')

def lit(s):
    s = s.strip().replace('_', '')
    neg = s.startswith('-')
    if neg: s = s[1:]
    mant, _, exp = s.partition('e')
    e = int(exp) if exp else 0
    ip, _, fp = mant.partition('.')
    m = int(ip + fp)
    e -= len(fp)
    return '(%s%d, %s)' % ('-' if neg else '', m, '(%d)' % e if e < 0 else str(e))

out = ['(** Generated by tools/gen_data.py from /repo/src/legendre/bogaert/data.rs.',
       '    A pair (m, e) is the decimal literal m * 10^e. *)',
       'From Coq Require Import ZArith List.', 'Import ListNotations.',
       'Local Open Scope Z_scope.', '']
for ln, l in enumerate(lines, 1):
    m = re.match(r'(?:pub )?static (\w+): \[f64; (\d+)\] = \[(.*)\];', l)
    if m:
        name, n, body = m.group(1), int(m.group(2)), [x for x in m.group(3).split(',') if x.strip()]
        assert len(body) == n, name
        out.append('(** data.rs:%d *)' % ln)
        out.append('Definition %s : list (Z * Z) := [%s].' % (name, '; '.join(lit(x) for x in body)))
        continue
    m = re.match(r'pub static (\w+): \[&\[f64\]; (\d+)\] = \[(.*)\];', l)
    if m:
        name, n, body = m.group(1), int(m.group(2)), [x.strip() for x in m.group(3).split(',') if x.strip()]
        assert len(body) == n, name
        assert all(x[0] == '&' for x in body)
        out.append('(** data.rs:%d *)' % ln)
        out.append('Definition %s : list (list (Z * Z)) := [%s].' % (name, '; '.join(x[1:] for x in body)))
        continue
    assert not l.strip() or l.startswith('//') or l.startswith('#['), (ln, l[:100])
open('/verif/rocq/theories/LegendreData.v', 'w').write('\n'.join(out) + '\n')
